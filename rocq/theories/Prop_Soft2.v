(** Soft-body engine: Dirichlet conditions (C113), contact Jacobian (C114), when a step succeeds (C115), engines that can never be stepped again (C116), stabilisation (C117). *)
From Verif Require Import Base VecModel VecProofs SolverModel SolverProofs ProxModel RigidTypes StepModel ConProofs MechModel FemModel FemSpec FemProofs FemProofs2 Prop_Fem2
  SoftModel SoftSpec SoftProofs SoftProofs2 SoftReach.
Open Scope R_scope.

(** ** C111: well-formed engines *)
Theorem C111_consistent eigh axis e : soft_reach eigh axis e -> soft_ok e.
Proof. apply reach_ok. Qed.
(** two different nodes of the world never share a place in the global vectors *)
Theorem C111_layout eigh axis e b c i j : soft_reach eigh axis e -> forallb ready (sg_bodies e) = true -> In b (sg_bodies e) -> In c (sg_bodies e) -> (i < s_n b)%nat -> (j < s_n c)%nat ->
  (s_offset b + i < sg_N e)%nat /\ (s_offset b + i = s_offset c + j -> s_name b = s_name c /\ i = j)%nat.
Proof.
  intros HRe HR Hb Hc Hi Hj. pose proof (reach_ok _ _ _ HRe) as HO. pose proof (so_layout e HO) as HL. destruct (layout_range _ _ _ HL HR b Hb) as [_ Rb]. split; [lia|].
  assert (G : forall bs s N, layout bs s N -> forallb ready bs = true -> In b bs -> In c bs -> (s_offset b + i = s_offset c + j)%nat -> s_name b = s_name c /\ i = j).
  { induction bs as [|d bs IH]; intros s N L R B C E; [destruct B|]. cbn [layout] in L. cbn [forallb] in R. apply andb_prop in R as [R1 R2]. rewrite R1 in L. destruct L as [L1 L2].
    destruct B as [->|B], C as [->|C].
    - split; [reflexivity|lia].
    - destruct (layout_range _ _ _ L2 R2 c C). lia.
    - destruct (layout_range _ _ _ L2 R2 b B). lia.
    - eapply IH; eassumption. }
  intros E. eapply G; eassumption.
Qed.
(** writing coordinates or velocities of one body is read back, and nothing else changes *)
Lemma find_upd e n f b : find_sbody e n = Some b -> (forall c, s_name (f c) = s_name c) -> find_sbody (upd_sbody e n f) n = Some (f b) /\ forall k, k <> n -> find_sbody (upd_sbody e n f) k = find_sbody e k.
Proof.
  intros H Hf. unfold find_sbody, upd_sbody, sg_with_bodies in *. cbn [sg_bodies]. induction (sg_bodies e) as [|c bs IH]; [discriminate|]. cbn [find map] in *. destruct (name_eqb (s_name c) n) eqn:E.
  - injection H as ->. rewrite Hf, E. split; [reflexivity|]. intros k Hk. apply name_eqb_eq in E. destruct (name_eqb (s_name b) k) eqn:E2; [apply name_eqb_eq in E2; congruence|].
    clear - Hf Hk. induction bs as [|c bs IH]; [reflexivity|]. cbn [find map]. destruct (name_eqb (s_name c) n) eqn:E.
    + rewrite Hf. apply name_eqb_eq in E. destruct (name_eqb (s_name c) k) eqn:E2; [apply name_eqb_eq in E2; congruence|exact IH].
    + destruct (name_eqb (s_name c) k); [reflexivity|exact IH].
  - rewrite E. destruct (IH H) as [P1 P2]. split; [exact P1|]. intros k Hk. destruct (name_eqb (s_name c) k); [reflexivity|apply P2; exact Hk].
Qed.
Theorem C111_write_read e e' n b len x : find_sbody e n = Some b -> set_spatial_coordinates e n len x = SDone e' ->
  exists b', find_sbody e' n = Some b' /\ s_x b' = x /\ s_u b' = s_u b /\ s_x0 b' = s_x0 b /\ len = s_n b /\ forall k, k <> n -> find_sbody e' k = find_sbody e k.
Proof.
  intros Hb H. unfold set_spatial_coordinates in H. rewrite Hb in H. destruct (ready b && Nat.eqb len (s_n b)) eqn:E; [|discriminate]. injection H as <-. apply andb_prop in E as [_ E]. apply Nat.eqb_eq in E.
  destruct (find_upd e n (fun b => sb_with_x b x) b Hb ltac:(reflexivity)) as [P1 P2]. eexists. split; [exact P1|]. repeat (split; [reflexivity || exact E|]). exact P2.
Qed.
(** set_spatial_coordinates(get_material_coordinates()) puts a body back to its rest shape *)
Theorem C111_reset e n b : find_sbody e n = Some b -> ready b = true -> exists len x0 e' b', get_material_coordinates e n = Some (len, x0) /\ set_spatial_coordinates e n len x0 = SDone e' /\ find_sbody e' n = Some b' /\ s_x b' = s_x0 b.
Proof.
  intros Hb HR. exists (s_n b), (s_x0 b). unfold get_material_coordinates, set_spatial_coordinates. rewrite Hb, HR, Nat.eqb_refl. cbn [andb]. unfold ready in HR.
  destruct (find_upd e n (fun b0 => sb_with_x b0 (s_x0 b)) b Hb ltac:(reflexivity)) as [P1 P2]. eexists. eexists. split; [destruct (s_stage b); try discriminate; reflexivity|]. split; [reflexivity|]. split; [exact P1|reflexivity].
Qed.

(** ** C113: Dirichlet conditions are enforced exactly *)
(** after every successful step the nodes with a Dirichlet condition are exactly at their rest positions and do not move,
    whatever forces and contacts act, and all other nodes obey x' = x + dt u' with the new velocity *)
Theorem C113_dirichlet eigh axis cd sv dt e e' : soft_reach eigh axis e -> soft_step cd sv dt e = SDone e' ->
  Forall2 (fun b b' => s_name b' = s_name b /\ s_x0 b' = s_x0 b /\ s_dirichlet b' = s_dirichlet b /\ forall i, (i < s_n b)%nat ->
    (pinned b i -> s_x b' i = s_x0 b i /\ s_u b' i = vzero) /\ (~ pinned b i -> s_x b' i = vadd (s_x b i) (vscale dt (s_u b' i)))) (sg_bodies e) (sg_bodies e').
Proof.
  intros HRe HS. pose proof (reach_ok _ _ _ HRe) as HO. destruct (step_nodes cd sv dt e e' HO HS) as (W & Fe & Ft & Fd & Fext & cs & q & HH). cbv zeta in HH.
  destruct HH as (_ & _ & _ & _ & _ & _ & _ & _ & _ & _ & H). revert H. generalize (sg_bodies e) (sg_bodies e'). intros l l' H. induction H as [|b b' l l' (x' & u' & Eb & Hi) HF IH]; constructor; [|exact IH].
  rewrite Eb. repeat (split; [reflexivity|]). rewrite <- Eb. intros i Hn. destruct (Hi i Hn) as [H1 H2].
  assert (P : is_dir b i = true <-> pinned b i). { unfold is_dir, pinned. rewrite existsb_exists. split; intros (d & Hd & E); exists d; split; auto; apply Nat.eqb_eq; exact E. }
  split.
  - intros HP. apply P in HP. rewrite HP in H1, H2. split; assumption.
  - intros HP. destruct (is_dir b i) eqn:ED; [exfalso; apply HP; apply P; reflexivity|]. exact H2.
Qed.

(** ** C114: the contact Jacobian *)
(** row block k of J times the nodal velocities: the relative velocity, at the contact's barycentric points, of body B against body
    A, in the frame (n, s, t) of the contact; the fourth row (rolling) is zero *)
Theorem C114_jacobian eigh axis e J k cp : soft_reach eigh axis e -> forallb ready (sg_bodies e) = true -> soft_jacobian e = Some J -> nth_error (sg_contacts e) k = Some cp ->
  exists A B tA tB vs vt vn, nth_error (sg_bodies e) (sc_A cp) = Some A /\ nth_error (sg_bodies e) (sc_B cp) = Some B /\ nth_error (s_T A) (sc_tetA cp) = Some tA /\ nth_error (s_T B) (sc_tetB cp) = Some tB /\
    make_orthonormal_vectors (sc_n cp) = Some (vs, vt, vn) /\
  let Ju := mdotv (3 * sg_N e) J (flat (get_velocity_vector e)) in let w := vsub (interpolate (s_u B) tB (sc_wB cp)) (interpolate (s_u A) tA (sc_wA cp)) in
    Ju (4 * k)%nat = vdot vn w /\ Ju (4 * k + 1)%nat = vdot vs w /\ Ju (4 * k + 2)%nat = vdot vt w /\ Ju (4 * k + 3)%nat = 0.
Proof.
  intros HRe HR HJ Hk. pose proof (reach_ok _ _ _ HRe) as HO. destruct (jacobian_row e J HO HR HJ k cp Hk) as (A & B & tA & tB & vs & vt & vn & HC & HF & Hrow).
  destruct (contact_nodes e cp A B tA tB HO HR HC) as (HA & HB & NA & NB & _). exists A, B, tA, tB, vs, vt, vn. destruct HC as (C1 & C2 & C3 & C4). repeat (split; [assumption|]).
  specialize (Hrow (flat (get_velocity_vector e))). cbv zeta in *.
  assert (EB : interpolate (view (unflat (flat (get_velocity_vector e))) B) tB (sc_wB cp) = interpolate (s_u B) tB (sc_wB cp)).
  { unfold interpolate, view. rewrite !unflat_flat. unfold get_velocity_vector. rewrite !(gather_at _ 0 (sg_N e) s_u B _ (so_layout e HO) HR HB (NB _)). reflexivity. }
  assert (EA : interpolate (view (unflat (flat (get_velocity_vector e))) A) tA (sc_wA cp) = interpolate (s_u A) tA (sc_wA cp)).
  { unfold interpolate, view. rewrite !unflat_flat. unfold get_velocity_vector. rewrite !(gather_at _ 0 (sg_N e) s_u A _ (so_layout e HO) HR HA (NA _)). reflexivity. }
  rewrite EA, EB in Hrow. exact Hrow.
Qed.

(** ** C115: when a step succeeds *)
Lemma volume_ext x y (t : elem) : (forall a, x (node t a) = y (node t a)) -> elem_volume x t = elem_volume y t.
Proof. intros H. unfold elem_volume, corners. rewrite !H. reflexivity. Qed.
Lemma elastic_defined b (x : field) pk1 : body_ok b -> ready b = true -> Forall (fun t => 0 < elem_volume x t) (s_T b) -> (forall F, pk1 F <> None) ->
  exists F, compute_deformation_gradient x (s_T b) (s_invD0 b) = Some F /\ exists f, elastic_loop (s_T b) (s_gradN0 b) F pk1 fzero = Some f.
Proof.
  intros HB HR HV HP. pose proof (bo_inv b HB HR) as EI. destruct (compute_deformation_gradient x (s_T b) (s_invD0 b)) as [F|] eqn:EF.
  2:{ exfalso. apply F_none in EF. rewrite Exists_exists in EF. destruct EF as (t & Ht & Hv). rewrite Forall_forall in HV. specialize (HV t Ht). lra. }
  exists F. split; [reflexivity|]. pose proof (invD0_forall _ _ _ EI) as AI. assert (LI : length (s_T b) = length (s_invD0 b)) by (clear - AI; induction AI; cbn; lia).
  pose proof (F_forall _ _ _ F EF LI) as AF. assert (LF : length F = length (s_T b)). { assert (length (combine (s_T b) (s_invD0 b)) = length F) by (clear - AF; induction AF; cbn; lia). rewrite combine_length in H. lia. }
  rewrite (bo_grad b HB). unfold compute_outward_face_vectors. revert LF HP. clear. generalize fzero. revert F. induction (s_T b) as [|t T IH]; intros [|Fe F] y; cbn [map elastic_loop length]; intros L HP; try lia; [eauto|].
  destruct (pk1 Fe) as [P|] eqn:E; [|exfalso; apply (HP Fe E)]. apply IH; [lia|exact HP].
Qed.
Lemma start_view e b : soft_ok e -> forallb ready (sg_bodies e) = true -> In b (sg_bodies e) -> forall i, (i < s_n b)%nat -> view (bc_positions (sg_bodies e) (get_position_vector e)) b i = start_position b i.
Proof.
  intros HO HR Hb i Hi. unfold view. rewrite (bc_positions_at _ _ _ b i (so_layout e HO) HR (so_bodies e HO) Hb Hi). unfold start_position, is_dir. destruct (existsb _ _); [reflexivity|]. apply (gather_at _ 0 (sg_N e)); auto. apply (so_layout e HO).
Qed.
Lemma map_all_total {A B} (f : A -> option B) l : (forall a, In a l -> f a <> None) -> exists r, map_all f l = Some r.
Proof.
  induction l as [|a l IH]; intros H; cbn [map_all]; [eauto|]. destruct (f a) as [b|] eqn:E; [|exfalso; apply (H a); [left; reflexivity|exact E]]. destruct IH as [r ->]; [intros c Hc; apply H; right; exact Hc|eauto].
Qed.
Lemma steppable_forces e : soft_ok e -> steppable e -> forallb ready (sg_bodies e) = true /\
  (exists Fe, elastic_forces (bc_positions (sg_bodies e) (get_position_vector e)) e = Some Fe) /\ (exists Ft, traction_forces (bc_positions (sg_bodies e) (get_position_vector e)) e = Some Ft) /\
  (exists Fd, damping_forces (bc_velocities (sg_bodies e) (get_velocity_vector e)) e = Some Fd) /\ (exists Fx, external_forces e = Some Fx).
Proof.
  intros HO HP. assert (HR : forallb ready (sg_bodies e) = true). { apply forallb_forall. intros b Hb. destruct (HP b Hb) as [S _]. unfold ready. rewrite S. reflexivity. }
  split; [exact HR|]. repeat split; apply collect_total; intros b Hb; destruct (HP b Hb) as (S & C & V & m & lam & mu & Em & El & Emu & EP).
  - unfold body_elastic. assert (Bb : body_ok b) by (pose proof (so_bodies e HO) as HB; rewrite Forall_forall in HB; apply HB; exact Hb).
    assert (Rb : ready b = true) by (unfold ready; rewrite S; reflexivity).
    assert (V' : Forall (fun t => 0 < elem_volume (view (bc_positions (sg_bodies e) (get_position_vector e)) b) t) (s_T b)).
    { pose proof (bo_mesh b Bb) as VM. unfold valid_mesh in VM. apply Forall_forall. intros t Ht. rewrite Forall_forall in V, VM. rewrite (volume_ext _ (start_position b)); [apply V; exact Ht|]. intros a. apply start_view; auto; apply VM; exact Ht. }
    destruct (elastic_defined b _ (fun F => pk1_stress (sm_model m) F lam mu) Bb Rb V' EP) as (F & EF & f & Ef). rewrite EF, Em, El, Emu. unfold compute_elastic_forces. rewrite Ef. discriminate.
  - discriminate.
  - destruct (s_C b); [discriminate|contradiction].
  - rewrite Em. discriminate.
Qed.
Lemma post_fine sv J WJT e : (forall cp, In cp (sg_contacts e) -> - sq_min_gap (sg_params e) <= sc_g cp) -> soft_post_stabilization sv J WJT e = Some e.
Proof.
  intros H. unfold soft_post_stabilization. assert (E : forallb (fun g => Reqb g 0) (map (post_gap (sq_min_gap (sg_params e))) (sg_contacts e)) = true); [|rewrite E; reflexivity].
  apply forallb_forall. intros g Hg. apply in_map_iff in Hg as (cp & <- & Hc). unfold post_gap. destruct (Rltb (sc_g cp) (- sq_min_gap (sg_params e))) eqn:E; [apply Rltb_true in E; specialize (H cp Hc); lra|]. apply Reqb_true. reflexivity.
Qed.
(** sufficient conditions; in particular a step only fails for one of these reasons *)
Theorem C115_step_succeeds eigh axis cd sv dt e W cs : soft_reach eigh axis e -> steppable e -> sg_stepper e = Some ((3 * sg_N e)%nat, W) -> cd e = Some cs ->
  (cs <> [] -> contacts_fine e cs /\ sq_pre (sg_params e) = false /\ (forall K n J WJT b mu fs, (0 < K)%nat -> sv K n J WJT b mu fs <> None) /\
               (sq_post (sg_params e) = true -> forall cp, In cp cs -> - sq_min_gap (sg_params e) <= sc_g cp)) ->
  exists e', soft_step cd sv dt e = SDone e'.
Proof.
  intros HRe HP HW Hcd HC. pose proof (reach_ok _ _ _ HRe) as HO. destruct (steppable_forces e HO HP) as (HR & (Fe & E1) & (Ft & E2) & (Fd & E3) & (Fx & E4)).
  unfold soft_step. rewrite HW, HR, E1, E2, E3, E4, Nat.eqb_refl, Hcd. cbn [negb]. destruct cs as [|c cs]; [eauto|]. destruct (HC ltac:(discriminate)) as (CF & CP & CS & CPo). clear HC.
  assert (EJ : exists J, soft_jacobian (sg_with_contacts e (c :: cs)) = Some J).
  { unfold soft_jacobian. cbn [sg_with_contacts sg_bodies sg_contacts]. destruct (map_all_total (fun kc : nat * scontact => soft_contact_entries (sg_bodies e) (fst kc) (snd kc)) (combine (seq 0 (length (c :: cs))) (c :: cs))) as [r Er]; [|rewrite Er; eauto].
    intros [k cp] Hin. apply in_combine_r in Hin. destruct (CF cp Hin) as (A & B & tA & tB & ma & mb & X1 & X2 & X3 & X4 & X5 & X6 & X7 & X8). unfold soft_contact_entries. cbn [fst snd]. rewrite X1, X2, X3, X4.
    destruct (make_orthonormal_vectors (sc_n cp)) as [[[vs vt] vn]|]; [discriminate|contradiction]. }
  destruct EJ as [J EJ]. rewrite EJ, CP.
  assert (EF : exists mu, soft_friction (sg_with_contacts e (c :: cs)) = Some mu).
  { unfold soft_friction. cbn [sg_with_contacts sg_bodies sg_contacts sg_lib]. match goal with |- context [map_all ?f ?l] => destruct (map_all_total f l) as [r Er]; [|rewrite Er; eauto] end.
    intros cp Hin. destruct (CF cp Hin) as (A & B & tA & tB & ma & mb & X1 & X2 & X3 & X4 & X5 & X6 & X7 & X8). rewrite X1, X2, X6, X7. destruct (soft_get_interaction (sg_lib e) ma mb); [discriminate|contradiction]. }
  destruct EF as [mu EF]. rewrite EF. unfold contact_solve. rewrite Nat.eqb_refl. destruct (sv _ _ _ _ _ _ _) as [sol|] eqn:ES; [|exfalso; eapply CS; [|exact ES]; cbn [length]; lia].
  destruct (sq_post (sg_params e)) eqn:EPo; [|eauto]. rewrite post_fine; [eauto|]. exact (CPo eq_refl).
Qed.
(** necessary conditions: the bodies are complete, have a material, no tetrahedron is inverted, the stepper fits the world, the
    contacts have interactions, pre-stabilisation is off *)
Theorem C115_step_requires eigh axis cd sv dt e e' : soft_reach eigh axis e -> soft_step cd sv dt e = SDone e' ->
  (exists W, sg_stepper e = Some ((3 * sg_N e)%nat, W)) /\
  (forall b, In b (sg_bodies e) -> s_stage b = Complete /\ s_C b <> None /\ Forall (fun t => 0 < elem_volume (start_position b) t) (s_T b) /\ exists m, material_of e b = Some m) /\
  (forall cp, In cp (sg_contacts e') -> exists A B ma mb, nth_error (sg_bodies e) (sc_A cp) = Some A /\ nth_error (sg_bodies e) (sc_B cp) = Some B /\ s_material A = Some ma /\ s_material B = Some mb /\
     soft_get_interaction (sg_lib e) ma mb <> None) /\
  (sg_contacts e' <> [] -> sq_pre (sg_params e) = false).
Proof.
  intros HRe HS. pose proof (reach_ok _ _ _ HRe) as HO. destruct (step_inv cd sv dt e e' HS) as (W & Fe & Ft & Fd & Fext & cs & q & HH). cbv zeta in HH. destruct HH as (H1 & HR & H3 & H4 & H5 & H6 & H7 & H8 & HE).
  assert (EC : sg_contacts e' = cs) by (rewrite HE; reflexivity). rewrite EC. split; [eauto|]. split.
  - intros b Hb. assert (Rb : ready b = true) by (rewrite forallb_forall in HR; apply HR; exact Hb). assert (Bb : body_ok b) by (pose proof (so_bodies e HO) as HB; rewrite Forall_forall in HB; apply HB; exact Hb).
    split; [unfold ready in Rb; destruct (s_stage b); congruence|]. pose proof (collect_all_some _ _ _ _ H5 b Hb) as D. split; [intros HN; apply D; cbv beta; rewrite HN; reflexivity|].
    pose proof (collect_all_some _ _ _ _ H3 b Hb) as E. unfold body_elastic in E. destruct (compute_deformation_gradient _ _ _) as [F|] eqn:EF; [|exfalso; apply E; reflexivity]. split.
    + apply Forall_forall. intros t Ht. pose proof (bo_mesh b Bb) as VM. unfold valid_mesh in VM. rewrite Forall_forall in VM.
      destruct (Rlt_le_dec 0 (elem_volume (start_position b) t)) as [L|L]; [exact L|]. exfalso.
      assert (X : compute_deformation_gradient (view (bc_positions (sg_bodies e) (get_position_vector e)) b) (s_T b) (s_invD0 b) = None); [|congruence].
      apply F_none. apply Exists_exists. exists t. split; [exact Ht|]. rewrite (volume_ext _ (start_position b)); [exact L|]. intros a. apply start_view; auto; apply VM; exact Ht.
    + destruct (material_of e b) as [m|]; [eauto|exfalso; apply E; reflexivity].
  - split.
    + intros cp Hcp. destruct H8 as [[-> _]|(_ & J & mu & sol & HJ & _ & HM & _)]; [destruct Hcp|]. unfold soft_friction in HM. cbn [sg_with_contacts sg_bodies sg_contacts sg_lib] in HM.
      destruct (map_all _ cs) as [mus|] eqn:EM; [|discriminate]. apply In_nth_error in Hcp as [k Hk]. destruct (map_all_nth _ _ _ EM) as [_ P]. destruct (P k cp Hk) as (r & Er & _). cbv beta in Er.
      destruct (nth_error (sg_bodies e) (sc_A cp)) as [A|]; [|discriminate]. destruct (nth_error (sg_bodies e) (sc_B cp)) as [B|]; [|discriminate]. destruct (s_material A) as [ma|] eqn:EA; [|discriminate]. destruct (s_material B) as [mb|] eqn:EB; [|discriminate].
      exists A, B, ma, mb. repeat (split; [reflexivity || assumption|]). destruct (soft_get_interaction (sg_lib e) ma mb); [discriminate|discriminate].
    + intros Hne. destruct H8 as [[-> _]|(_ & J & mu & sol & HJ & HP & _)]; [contradiction|exact HP].
Qed.
