(** Soft-body engine: momentum balance (C112), Dirichlet conditions (C113), contact Jacobian (C114). *)
From Coq Require Import FunctionalExtensionality.
From Verif Require Import Base VecModel VecProofs SolverModel SolverProofs ProxModel RigidTypes StepModel ConProofs ConProofs2 MechModel FemModel FemSpec FemProofs FemProofs2 MechProofs Prop_Fem Prop_Fem2
  SoftModel SoftSpec SoftProofs SoftProofs2 SoftProofs3 SoftProofs4 SoftReach.
Open Scope R_scope.

(** ** C112: momentum *)
(** Newton's second and third law for one body: in a successful step of any length, with whatever the collision detection and the
    contact solver return, the momentum of a body without Dirichlet conditions changes by dt times its weight, its traction loads
    and its damping forces, plus the impulses of its contacts; elastic forces never contribute *)
Theorem C112_body_momentum eigh axis cd sv dt e e' : soft_reach eigh axis e -> stepper_fresh e -> soft_step cd sv dt e = SDone e' ->
  exists u' sol, solver_answer sv e (sg_contacts e') u' sol /\ forall b, In b (sg_bodies e) -> s_dirichlet b = [] -> exists b', In b' (sg_bodies e') /\ s_name b' = s_name b /\
    body_momentum b' (s_u b') = vadd (vadd (body_momentum b (s_u b)) (vscale dt (vtotal (s_n b) (applied_forces e b)))) (net_impulse (sg_bodies e) b (sg_contacts e') sol).
Proof.
  intros HRe (M & W & HM & HW & HI) HS. pose proof (reach_ok _ _ _ HRe) as HO.
  destruct (step_weak cd sv dt e e' M HO HS HM) as (Fe & Ft & Fd & Fext & sol & HH). { intros W' E'. replace W' with W by congruence. exact HI. }
  cbv zeta in HH. destruct HH as (H1 & H2 & H3 & H4 & H5 & HSA & phi & HP & HPb & HWk). destruct HSA as [uf HSA]. exists uf, sol. split; [exact HSA|]. intros b Hb HD. exists (phi b). split; [rewrite HP; apply in_map; exact Hb|].
  destruct (HPb b Hb) as [(x' & u' & Ephi) _]. split; [rewrite Ephi; reflexivity|].
  assert (HR : forallb ready (sg_bodies e) = true). { destruct (step_inv cd sv dt e e' HS) as (W' & Fe' & Ft' & Fd' & Fext' & cs & q & HH). cbv zeta in HH. apply HH. }
  apply vdot_ext. intros a.
  set (g := fun c : sbody => if name_eqb (s_name c) (s_name b) then (fun _ : nat => a) else fzero).
  specialize (HWk g). rewrite (contact_work_body _ _ _ b a (step_located cd sv dt e e' HO HS)) in HWk.
  assert (NZ : forall c, In c (sg_bodies e) -> s_name c <> s_name b -> g c = fzero). { intros c _ Hne. unfold g. destruct (name_eqb (s_name c) (s_name b)) eqn:E; [apply name_eqb_eq in E; contradiction|reflexivity]. }
  assert (GB : g b = fun _ => a) by (unfold g; rewrite name_eqb_refl; reflexivity).
  assert (ND : no_dirichlet_or_zero e g).
  { intros c Hc. destruct (name_eqb (s_name c) (s_name b)) eqn:E; [left|right; intros i _; unfold g; rewrite E; reflexivity]. apply name_eqb_eq in E.
    assert (c = b). { pose proof (so_names e HO) as NN. clear - NN Hc Hb E. induction (sg_bodies e) as [|d bs IH]; [destruct Hc|]. cbn [map] in NN. inversion NN as [|? ? N1 N2]; subst.
      destruct Hc as [->|Hc], Hb as [->|Hb]; auto; exfalso; apply N1; [rewrite E|rewrite <- E]; apply in_map; assumption. } subst c. exact HD. }
  specialize (HWk ND).
  rewrite !(rsum_over_pick _ (sg_bodies e) b (so_names e HO) Hb) in HWk.
  2:{ intros c Hc Hne. rewrite (NZ c Hc Hne). apply work_zero_r. reflexivity. }
  2:{ intros c Hc Hne. rewrite (NZ c Hc Hne). unfold momentum_work. destruct (s_M c); [apply work_zero_r; reflexivity|reflexivity]. }
  2:{ intros c Hc Hne. rewrite (NZ c Hc Hne). unfold momentum_work. destruct (s_M c); [apply work_zero_r; reflexivity|reflexivity]. }
  rewrite GB, !momentum_work_dot in HWk.
  destruct (forces_work e Fe Ft Fd Fext b (fun _ => a) HO HR H1 H2 H3 H4 Hb HD) as (fe & m & lam & mu & Em & EMf & _ & EW). rewrite EW in HWk.
  assert (Z : work (s_n b) fe (fun _ => a) = 0). { rewrite <- vtotal_dot. assert (Bb : body_ok b) by (pose proof (so_bodies e HO) as HB; rewrite Forall_forall in HB; apply HB; exact Hb).
    rewrite (C107_no_net_force _ lam mu (s_n b) _ _ _ fe (bo_mesh b Bb) EMf). destruct a; vunf; ring. }
  rewrite Z, Rplus_0_r, <- vtotal_dot in HWk.
  assert (EB : body_momentum (phi b) (s_u (phi b)) = body_momentum b (s_u (phi b))) by (rewrite Ephi; reflexivity). rewrite EB, HWk.
  generalize (body_momentum b (s_u b)) (vtotal (s_n b) (applied_forces e b)) (net_impulse (sg_bodies e) b (sg_contacts e') sol). clear. intros v1 v2 v3. vring.
Qed.
(** the whole world: contacts cancel (both weights of a contact sum to the same number) *)
Theorem C112_total_momentum eigh axis cd sv dt e e' : soft_reach eigh axis e -> stepper_fresh e -> soft_step cd sv dt e = SDone e' -> (forall b, In b (sg_bodies e) -> s_dirichlet b = []) ->
  (forall cp, In cp (sg_contacts e') -> wsum (sc_wA cp) = wsum (sc_wB cp)) ->
  vsum_over (fun b => body_momentum b (s_u b)) (sg_bodies e') =
  vadd (vsum_over (fun b => body_momentum b (s_u b)) (sg_bodies e)) (vscale dt (vsum_over (fun b => vtotal (s_n b) (applied_forces e b)) (sg_bodies e))).
Proof.
  intros HRe (M & W & HM & HW & HI) HS HD HC. pose proof (reach_ok _ _ _ HRe) as HO.
  destruct (step_weak cd sv dt e e' M HO HS HM) as (Fe & Ft & Fd & Fext & sol & HH). { intros W' E'. replace W' with W by congruence. exact HI. }
  cbv zeta in HH. destruct HH as (H1 & H2 & H3 & H4 & H5 & HSA & phi & HP & HPb & HWk).
  assert (HR : forallb ready (sg_bodies e) = true). { destruct (step_inv cd sv dt e e' HS) as (W' & Fe' & Ft' & Fd' & Fext' & cs & q & HH). cbv zeta in HH. apply HH. }
  apply vdot_ext. intros a. specialize (HWk (fun _ _ => a)). rewrite (contact_work_total _ _ _ _ (step_located cd sv dt e e' HO HS) HC) in HWk. specialize (HWk (fun b Hb => or_introl (HD b Hb))).
  rewrite HP, !vdot_vsum_over.
  assert (EM : forall l, rsum_over (fun x => vdot a (body_momentum x (s_u x))) (map phi l) = rsum_over (fun b => vdot a (body_momentum (phi b) (s_u (phi b)))) l) by (intros l; induction l as [|c l IH]; cbn; [reflexivity|rewrite IH; reflexivity]).
  rewrite EM. rewrite (rsum_over_ext _ (fun b => momentum_work b (s_u (phi b)) (fun _ => a))).
  2:{ intros b Hb. destruct (HPb b Hb) as [(x' & u' & Ephi) _]. rewrite momentum_work_dot. rewrite Ephi. reflexivity. }
  rewrite HWk. rewrite (rsum_over_ext (fun b => momentum_work b (s_u b) (fun _ => a)) (fun b => vdot a (body_momentum b (s_u b)))) by (intros b _; apply momentum_work_dot).
  rewrite (rsum_over_ext (fun b => work _ (view _ b) _) (fun b => vdot a (vtotal (s_n b) (applied_forces e b)))).
  2:{ intros b Hb. destruct (forces_work e Fe Ft Fd Fext b (fun _ => a) HO HR H1 H2 H3 H4 Hb (HD b Hb)) as (fe & m & lam & mu & Em & EMf & _ & EW). rewrite EW, <- !vtotal_dot.
    assert (Bb : body_ok b) by (pose proof (so_bodies e HO) as HB; rewrite Forall_forall in HB; apply HB; exact Hb). rewrite (C107_no_net_force _ lam mu (s_n b) _ _ _ fe (bo_mesh b Bb) EMf). destruct a; vunf; ring. }
  rewrite <- !vdot_vsum_over. generalize (vsum_over (fun b => body_momentum b (s_u b)) (sg_bodies e)) (vsum_over (fun b => vtotal (s_n b) (applied_forces e b)) (sg_bodies e)). clear. intros v1 v2. vring.
Qed.
(** angular momentum about the origin (hence about any point): the step is exact, with no error term in dt, for Saint
    Venant-Kirchhoff and neo-Hookean materials, if the two points of every contact coincide *)
Theorem C112_angular_momentum eigh axis cd sv dt e e' : soft_reach eigh axis e -> stepper_fresh e -> soft_step cd sv dt e = SDone e' -> (forall b, In b (sg_bodies e) -> s_dirichlet b = []) ->
  (forall b m, In b (sg_bodies e) -> material_of e b = Some m -> sm_model m = SVK \/ sm_model m = SNH) ->
  (forall cp, In cp (sg_contacts e') -> contact_point (sg_bodies e) s_x (sc_A cp) (sc_tetA cp) (sc_wA cp) = contact_point (sg_bodies e) s_x (sc_B cp) (sc_tetB cp) (sc_wB cp)) ->
  vsum_over (fun b => body_angular_momentum b (s_x b) (s_u b)) (sg_bodies e') =
  vadd (vsum_over (fun b => body_angular_momentum b (s_x b) (s_u b)) (sg_bodies e)) (vscale dt (vsum_over (fun b => torque (s_n b) (s_x b) (applied_forces e b)) (sg_bodies e))).
Proof.
  intros HRe (M & W & HM & HW & HI) HS HD HMod HC. pose proof (reach_ok _ _ _ HRe) as HO.
  destruct (step_weak cd sv dt e e' M HO HS HM) as (Fe & Ft & Fd & Fext & sol & HH). { intros W' E'. replace W' with W by congruence. exact HI. }
  cbv zeta in HH. destruct HH as (H1 & H2 & H3 & H4 & H5 & HSA & phi & HP & HPb & HWk).
  assert (HR : forallb ready (sg_bodies e) = true). { destruct (step_inv cd sv dt e e' HS) as (W' & Fe' & Ft' & Fd' & Fext' & cs & q & HH). cbv zeta in HH. apply HH. }
  apply vdot_ext. intros w. specialize (HWk (fun b i => vcross w (s_x b i))). rewrite (contact_work_rotation _ _ _ _ _ (step_located cd sv dt e e' HO HS) HC) in HWk. specialize (HWk (fun b Hb => or_introl (HD b Hb))).
  rewrite HP, !vdot_vsum_over.
  assert (EM : forall l, rsum_over (fun x => vdot w (body_angular_momentum x (s_x x) (s_u x))) (map phi l) = rsum_over (fun b => vdot w (body_angular_momentum (phi b) (s_x (phi b)) (s_u (phi b)))) l) by (intros l; induction l as [|c l IH]; cbn; [reflexivity|rewrite IH; reflexivity]).
  rewrite EM. rewrite (rsum_over_ext _ (fun b => momentum_work b (s_u (phi b)) (fun i => vcross w (s_x b i)))).
  2:{ intros b Hb. destruct (HPb b Hb) as [(x' & u' & Ephi) HX]. rewrite <- momentum_work_cross. assert (Bb : body_ok b) by (pose proof (so_bodies e HO) as HB; rewrite Forall_forall in HB; apply HB; exact Hb).
    unfold momentum_work. replace (s_M (phi b)) with (s_M b) by (rewrite Ephi; reflexivity). destruct (s_M b) as [Mb|] eqn:EMb; [|reflexivity].
    replace (s_n (phi b)) with (s_n b) by (rewrite Ephi; reflexivity). replace (s_T (phi b)) with (s_T b) by (rewrite Ephi; reflexivity).
    destruct (bo_M b Bb Mb EMb) as (rho & _ & ->). rewrite (bo_lumped b Bb). set (mu' := prod_mat_vec _ _ _).
    pose proof (lumped_parallel (s_n b) (s_T b) (s_vol0 b) rho (s_u (phi b)) w (bo_mesh b Bb)) as LP. fold mu' in LP.
    assert (E : work (s_n b) mu' (fun i => vcross w (s_x (phi b) i)) = work (s_n b) mu' (fun i => vcross w (s_x b i)) + dt * work (s_n b) mu' (fun i => vcross w (s_u (phi b) i))).
    { unfold work. rewrite <- rsum_scale, <- rsum_plus. apply rsum_ext. intros i Hi. rewrite (HX i Hi). unfold is_dir. rewrite (HD b Hb). cbn [existsb]. generalize (s_x b i) (s_u (phi b) i) (mu' i). clear. intros a c d. destruct w, a, c, d. vunf. ring. }
    rewrite E, LP. ring. }
  rewrite HWk. rewrite (rsum_over_ext (fun b => momentum_work b (s_u b) _) (fun b => vdot w (body_angular_momentum b (s_x b) (s_u b)))) by (intros b _; apply momentum_work_cross).
  rewrite (rsum_over_ext (fun b => work _ (view _ b) _) (fun b => vdot w (torque (s_n b) (s_x b) (applied_forces e b)))).
  2:{ intros b Hb. destruct (forces_work e Fe Ft Fd Fext b (fun i => vcross w (s_x b i)) HO HR H1 H2 H3 H4 Hb (HD b Hb)) as (fe & m & lam & mu & Em & EMf & EX & EW). rewrite EW, <- torque_dot.
    assert (Bb : body_ok b) by (pose proof (so_bodies e HO) as HB; rewrite Forall_forall in HB; apply HB; exact Hb).
    assert (T0 : torque (s_n b) (view (bc_positions (sg_bodies e) (get_position_vector e)) b) fe = vzero).
    { apply (C107_no_net_torque_models lam mu (s_n b) (s_x0 b) (s_T b)); [apply (bo_mesh b Bb)|]. destruct (HMod b m Hb Em) as [Q|Q]; rewrite Q in EMf; auto. }
    assert (T1 : work (s_n b) fe (fun i => vcross w (s_x b i)) = vdot w (torque (s_n b) (view (bc_positions (sg_bodies e) (get_position_vector e)) b) fe)).
    { rewrite torque_dot. unfold work. apply rsum_ext. intros i Hi. rewrite (EX i Hi). reflexivity. }
    rewrite T1, T0. destruct w; vunf; ring. }
  rewrite <- !vdot_vsum_over. generalize (vsum_over (fun b => body_angular_momentum b (s_x b) (s_u b)) (sg_bodies e)) (vsum_over (fun b => torque (s_n b) (s_x b) (applied_forces e b)) (sg_bodies e)). clear. intros v1 v2. vring.
Qed.
(** conservation laws of an isolated world *)
Lemma gravity_zero T vol rho n : compute_gravity_forces T vol rho vzero n = vzero.
Proof.
  unfold compute_gravity_forces. assert (G : forall l y, (forall n, y n = vzero) -> forall n, fold_left (fun Fg (tv : elem * R) => let (t, v) := tv in let dF := vscale (rho * v / 4) vzero in
     fadd (fadd (fadd (fadd Fg (node t 0) dF) (node t 1) dF) (node t 2) dF) (node t 3) dF) l y n = vzero).
  { induction l as [|[t v] l IH]; intros y Hy k; cbn [fold_left]; [apply Hy|]. apply IH. intros j.
    assert (Z : vscale (rho * v / 4) vzero = vzero) by (vunf; f_equal; ring). rewrite Z. assert (A0 : vadd vzero vzero = vzero) by (vunf; f_equal; ring).
    unfold fadd. rewrite Hy. repeat match goal with |- context [Nat.eqb ?a ?b] => destruct (Nat.eqb a b) end; rewrite ?A0; reflexivity. }
  apply G. reflexivity.
Qed.
Lemma damping_zero N T vol lumped u n : valid_mesh N T -> (n < N)%nat -> compute_damping_forces T (compute_damping_element_array 0 vol lumped) u n = vzero.
Proof.
  intros HT Hn. change (compute_damping_element_array 0 vol lumped) with (compute_mass_element_array 0 vol lumped). unfold compute_damping_forces.
  assert (E : prod_mat_vec T (compute_mass_element_array 0 vol lumped) u n = fzero n).
  { apply (work_inj N); [|exact Hn]. intros h. rewrite (mass_work N T vol 0 lumped _ _ HT), work_fzero. induction (combine T vol) as [|q l IH]; cbn [map sum fold_right]; [reflexivity|]. unfold sum in IH. rewrite IH. ring. }
  rewrite E. unfold fzero. vunf. f_equal; ring.
Qed.
Lemma isolated_forces e b : soft_ok e -> isolated e -> In b (sg_bodies e) -> forall i, (i < s_n b)%nat -> applied_forces e b i = vzero.
Proof.
  intros HO HI Hb i Hi. destruct (HI b Hb) as (G & T & C). assert (Bb : body_ok b) by (pose proof (so_bodies e HO) as HB; rewrite Forall_forall in HB; apply HB; exact Hb).
  unfold applied_forces. rewrite G, T. assert (A0 : vadd vzero vzero = vzero) by (vunf; f_equal; ring).
  assert (E3 : match s_C b with Some C0 => compute_damping_forces (s_T b) C0 (s_u b) i | None => vzero end = vzero).
  { destruct (s_C b) as [C0|]; [|reflexivity]. rewrite (C C0 eq_refl). apply (damping_zero (s_n b)); [apply (bo_mesh b Bb)|exact Hi]. }
  rewrite E3. destruct (material_of e b) as [m|]; [rewrite gravity_zero|]; cbn [compute_traction_forces fold_left]; unfold fzero; rewrite !A0; reflexivity.
Qed.
Lemma vsum_over_zero {A} (f : A -> vec3) l : (forall a, In a l -> f a = vzero) -> vsum_over f l = vzero.
Proof. induction l as [|a l IH]; intros H; cbn; [reflexivity|]. rewrite H by (left; reflexivity). rewrite IH by (intros b Hb; apply H; right; exact Hb). vunf. f_equal; ring. Qed.
Theorem C112_conservation eigh axis cd sv dt e e' : soft_reach eigh axis e -> stepper_fresh e -> isolated e -> soft_step cd sv dt e = SDone e' -> (forall b, In b (sg_bodies e) -> s_dirichlet b = []) ->
  (forall cp, In cp (sg_contacts e') -> wsum (sc_wA cp) = wsum (sc_wB cp)) ->
  vsum_over (fun b => body_momentum b (s_u b)) (sg_bodies e') = vsum_over (fun b => body_momentum b (s_u b)) (sg_bodies e) /\
  ((forall b m, In b (sg_bodies e) -> material_of e b = Some m -> sm_model m = SVK \/ sm_model m = SNH) ->
   (forall cp, In cp (sg_contacts e') -> contact_point (sg_bodies e) s_x (sc_A cp) (sc_tetA cp) (sc_wA cp) = contact_point (sg_bodies e) s_x (sc_B cp) (sc_tetB cp) (sc_wB cp)) ->
   vsum_over (fun b => body_angular_momentum b (s_x b) (s_u b)) (sg_bodies e') = vsum_over (fun b => body_angular_momentum b (s_x b) (s_u b)) (sg_bodies e)).
Proof.
  intros HRe HF HI HS HD HC. pose proof (reach_ok _ _ _ HRe) as HO. split.
  - rewrite (C112_total_momentum eigh axis cd sv dt e e' HRe HF HS HD HC).
    assert (Z : vsum_over (fun b => vtotal (s_n b) (applied_forces e b)) (sg_bodies e) = vzero).
    { apply vsum_over_zero. intros b Hb. apply vdot_ext. intros a. rewrite vtotal_dot. rewrite (work_ext _ _ fzero _ (isolated_forces e b HO HI Hb)), work_fzero. destruct a; vunf; ring. }
    rewrite Z. generalize (vsum_over (fun b => body_momentum b (s_u b)) (sg_bodies e)). clear. intros v. vring.
  - intros HM HP. rewrite (C112_angular_momentum eigh axis cd sv dt e e' HRe HF HS HD HM HP).
    assert (Z : vsum_over (fun b => torque (s_n b) (s_x b) (applied_forces e b)) (sg_bodies e) = vzero).
    { apply vsum_over_zero. intros b Hb. apply vdot_ext. intros a. rewrite torque_dot. rewrite (work_ext _ _ fzero _ (isolated_forces e b HO HI Hb)), work_fzero. destruct a; vunf; ring. }
    rewrite Z. generalize (vsum_over (fun b => body_angular_momentum b (s_x b) (s_u b)) (sg_bodies e)). clear. intros v. vring.
Qed.

(** ** C63 (soft bodies): get_largest_penetration_error is the maximum of 0 and the penetration depths *)
Theorem C63_soft_largest_penetration : forall cs : list scontact, let p := soft_largest_penetration cs in
  0 <= p /\ (forall c, In c cs -> - sc_g c <= p) /\ (p = 0 \/ exists c, In c cs /\ p = - sc_g c).
Proof.
  intros cs0. unfold soft_largest_penetration. cbv zeta.
  assert (G : forall cs a, let m := fold_left (fun gap cp => Rmin gap (sc_g cp)) cs a in m <= a /\ (forall c, In c cs -> m <= sc_g c) /\ (m = a \/ exists c, In c cs /\ m = sc_g c)).
  { clear. induction cs as [|c cs IH]; intros a; cbn [fold_left]; cbv zeta. { split; [lra|]. split; [intros ? []|auto]. }
    destruct (IH (Rmin a (sc_g c))) as (H1 & H2 & H3). cbv zeta in *. split; [eapply Rle_trans; [exact H1|apply Rmin_l]|]. split.
    - intros d [<-|Hd]; auto. eapply Rle_trans; [exact H1|apply Rmin_r].
    - destruct H3 as [H3|(d & Hd & H3)]; [|right; exists d; split; [right|]; auto]. rewrite H3. unfold Rmin. destruct (Rle_dec a (sc_g c)); [left; auto|right; exists c; split; [left|]; auto]. }
  destruct (G cs0 0) as (H1 & H2 & H3). cbv zeta in *. split; [lra|]. split; [intros c Hc; specialize (H2 c Hc); lra|].
  destruct H3 as [->|(c & Hc & ->)]; [left; lra|right; eauto].
Qed.
Print Assumptions C63_soft_largest_penetration.
