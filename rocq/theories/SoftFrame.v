(** What a time step and a call of the interface leave alone. *)
From Verif Require Import Base ListProofs VecModel VecProofs SolverModel SolverProofs BvhModel GridModel SurfModel VolModel RigidTypes StepModel MechModel FemModel FemSpec FemProofs FemProofs2 SoftModel SoftSpec SoftProofs SoftProofs2 SoftReach ConProofs Prop_Fem SoftProofs3.
Open Scope R_scope.

Definition motion (b b' : sbody) : Prop := exists x u, b' = sb_with_x (sb_with_u b u) x.
Lemma motion_refl b : motion b b. Proof. exists (s_x b), (s_u b). destruct b. reflexivity. Qed.
Lemma motion_refls bs : Forall2 motion bs bs. Proof. induction bs; constructor; [apply motion_refl|assumption]. Qed.
Lemma motion_trans a b c : motion a b -> motion b c -> motion a c.
Proof. intros (x & u & ->) (y & v & ->). exists y, v. reflexivity. Qed.
Lemma motions_trans l1 l2 : Forall2 motion l1 l2 -> forall l3, Forall2 motion l2 l3 -> Forall2 motion l1 l3.
Proof. induction 1 as [|a b l1 l2 H H' IH]; intros l3 H3; inversion H3; subst; constructor; [eapply motion_trans; eassumption|]. apply IH. assumption. Qed.
Lemma motion_map f bs : (forall b, motion b (f b)) -> Forall2 motion bs (map f bs).
Proof. intros H. induction bs; cbn; constructor; auto. Qed.
(** the engine after some steps: only positions, velocities, contacts and the stamp can differ *)
Record evolved (e e' : sengine) : Prop := mkEvolved {
  ev_materials : sg_materials e' = sg_materials e; ev_lib : sg_lib e' = sg_lib e; ev_N : sg_N e' = sg_N e; ev_stepper : sg_stepper e' = sg_stepper e;
  ev_time_step : sq_time_step (sg_params e') = sq_time_step (sg_params e); ev_pre : sq_pre (sg_params e') = sq_pre (sg_params e);
  ev_post : sq_post (sg_params e') = sq_post (sg_params e); ev_gap : sq_min_gap (sg_params e') = sq_min_gap (sg_params e);
  ev_bodies : Forall2 motion (sg_bodies e) (sg_bodies e') }.
Lemma evolved_refl e : evolved e e. Proof. constructor; try reflexivity. apply motion_refls. Qed.
Lemma evolved_trans a b c : evolved a b -> evolved b c -> evolved a c.
Proof. intros [] []. constructor; try congruence. eapply motions_trans; eassumption. Qed.
Lemma integrate_evolved e cs dt x up q : evolved e (integrate (sg_with_contacts e cs) dt x up q).
Proof. constructor; try reflexivity. rewrite integrate_bodies. cbv zeta. cbn [sg_with_contacts sg_bodies]. apply motion_map. intros b. eexists. eexists. reflexivity. Qed.
Lemma tick_evolved e e' : evolved e e' -> evolved e (sg_tick e').
Proof. intros []. constructor; assumption. Qed.
Lemma contacts_evolved e cs : evolved e (sg_with_contacts e cs).
Proof. constructor; try reflexivity. apply motion_refls. Qed.
Lemma step_evolved cd sv dt e : evolved e (outcome_engine (soft_step cd sv dt e)).
Proof.
  unfold soft_step. destruct (sg_stepper e) as [[dimW W]|]; [|apply evolved_refl]. destruct (negb (forallb ready (sg_bodies e))); [apply evolved_refl|].
  destruct (elastic_forces _ e) as [Fe|]; [|apply evolved_refl]. destruct (traction_forces _ e) as [Ft|]; [|apply evolved_refl]. destruct (damping_forces _ e) as [Fd|]; [|apply evolved_refl]. destruct (external_forces e) as [Fext|]; [|apply evolved_refl].
  destruct (negb _); [apply evolved_refl|]. destruct (cd e) as [cs|]; [|apply evolved_refl].
  destruct cs as [|c cs]; [apply tick_evolved, integrate_evolved|].
  destruct (soft_jacobian _) as [J|]; [|apply contacts_evolved]. destruct (sq_pre (sg_params e)); [apply contacts_evolved|]. destruct (soft_friction _) as [mu|]; [|apply contacts_evolved].
  destruct (contact_solve _ _ _ _ _ _ _ _ _) as [sol|]; [|apply contacts_evolved].
  destruct (sq_post (sg_params e)); [|apply tick_evolved, integrate_evolved].
  destruct (soft_post_stabilization _ _ _ _) as [e3|] eqn:EP; [|apply integrate_evolved]. apply post_some in EP. subst e3. apply tick_evolved, integrate_evolved.
Qed.
Definition sim_engine (e : sengine) (s : ssim) : sengine := match s with SimRaised e' => e' | SimEnd e' _ => e' | SimMore => e end.
Lemma loop_evolved cd sv fuel : forall T e, evolved e (sim_engine e (soft_loop (soft_step cd sv) fuel T e)).
Proof.
  induction fuel as [|fuel IH]; intros T e; cbn [soft_loop]; destruct (Reqb T 0); try apply evolved_refl. cbv zeta. set (dt := Rmin _ _).
  pose proof (step_evolved cd sv dt e) as HS. destruct (soft_step cd sv dt e) as [e1|e1]; cbn [outcome_engine] in HS; [|exact HS].
  specialize (IH (T - dt) e1). destruct (soft_loop _ fuel (T - dt) e1); cbn [sim_engine] in *; try (eapply evolved_trans; eassumption). apply evolved_refl.
Qed.
(** a simulate evolves the engine with the stepper it creates if there is none *)
Definition with_first_stepper (inv : nat -> mat -> option mat) (e : sengine) : sengine :=
  match sg_stepper e with Some _ => e | None => match soft_inverse_mass_matrix inv e with Some W => sg_with_stepper e W | None => e end end.
Lemma simulate_evolved inv cd sv fuel T e : evolved e (sim_engine e (soft_simulate inv cd sv fuel T e)) \/ evolved (with_first_stepper inv e) (sim_engine e (soft_simulate inv cd sv fuel T e)).
Proof.
  unfold soft_simulate, with_first_stepper. destruct (Rleb T 0); [left; apply evolved_refl|]. destruct (sg_stepper e) eqn:ES; [left; apply loop_evolved|].
  destruct (soft_inverse_mass_matrix inv e) as [W|]; [|left; apply evolved_refl]. pose proof (loop_evolved cd sv fuel T (sg_with_stepper e W)) as H.
  destruct (soft_loop _ fuel T _) eqn:EL; cbn [sim_engine] in *; try (right; exact H). left. apply evolved_refl.
Qed.
Lemma loop_reach eigh axis cd sv fuel : forall T e, soft_reach eigh axis e -> soft_reach eigh axis (sim_engine e (soft_loop (soft_step cd sv) fuel T e)).
Proof.
  induction fuel as [|fuel IH]; intros T e HR; cbn [soft_loop]; destruct (Reqb T 0); try exact HR. cbv zeta. set (dt := Rmin _ _).
  destruct (soft_step cd sv dt e) as [e1|e1] eqn:ES; [|cbn [sim_engine]; eapply reach_step; [exact HR|right; exact ES]].
  assert (H1 : soft_reach eigh axis e1) by (eapply reach_step; [exact HR|left; exact ES]). specialize (IH (T - dt) e1 H1).
  destruct (soft_loop _ fuel (T - dt) e1); cbn [sim_engine] in *; auto.
Qed.
Lemma simulate_reach eigh axis inv cd sv fuel T e : soft_reach eigh axis e -> soft_reach eigh axis (sim_engine e (soft_simulate inv cd sv fuel T e)).
Proof.
  intros HR. unfold soft_simulate. destruct (Rleb T 0); [exact HR|]. destruct (sg_stepper e) eqn:ES; [apply loop_reach; exact HR|].
  destruct (soft_inverse_mass_matrix inv e) as [W|] eqn:EI; [|exact HR]. pose proof (loop_reach eigh axis cd sv fuel T (sg_with_stepper e W) (reach_stepper eigh axis inv e W HR ES EI)) as H.
  destruct (soft_loop _ fuel T _) eqn:EL; cbn [sim_engine] in *; auto.
Qed.

(** ** the mass matrix *)
Definition same_mass (b b' : sbody) : Prop := s_M b' = s_M b /\ s_T b' = s_T b /\ s_offset b' = s_offset b.
Lemma map_all_ext2 {A B} (f : A -> option B) (R : A -> A -> Prop) l l' : (forall a b, R a b -> f b = f a) -> Forall2 R l l' -> map_all f l' = map_all f l.
Proof. intros HR. induction 1 as [|a b l l' H H' IH]; cbn [map_all]; [reflexivity|]. rewrite (HR a b H), IH. reflexivity. Qed.
Lemma mass_same e e' : Forall2 same_mass (sg_bodies e) (sg_bodies e') -> soft_mass_matrix e' = soft_mass_matrix e.
Proof.
  intros H. unfold soft_mass_matrix, soft_mass_triplets. rewrite (map_all_ext2 _ same_mass (sg_bodies e) (sg_bodies e')); [reflexivity| |exact H].
  intros a b (E1 & E2 & E3). rewrite E1, E2, E3. reflexivity.
Qed.
Lemma motion_mass b b' : motion b b' -> same_mass b b'. Proof. intros (x & u & ->). repeat split. Qed.
Lemma Forall2_imp {A B} (P Q : A -> B -> Prop) l l' : (forall a b, P a b -> Q a b) -> Forall2 P l l' -> Forall2 Q l l'.
Proof. intros H. induction 1; constructor; auto. Qed.
Lemma fresh_same e e' : Forall2 same_mass (sg_bodies e) (sg_bodies e') -> sg_N e' = sg_N e -> sg_stepper e' = sg_stepper e -> stepper_fresh e -> stepper_fresh e'.
Proof. intros H1 H2 H3 (M & W & HM & HS & HI). exists M, W. rewrite (mass_same e e' H1), H2, H3. auto. Qed.
Lemma evolved_fresh e e' : evolved e e' -> stepper_fresh e -> stepper_fresh e'.
Proof. intros HE. apply fresh_same; [|apply (ev_N _ _ HE)|apply (ev_stepper _ _ HE)]. eapply Forall2_imp; [|apply (ev_bodies _ _ HE)]. apply motion_mass. Qed.
Lemma upd_mass e n f : (forall b, same_mass b (f b)) -> Forall2 same_mass (sg_bodies e) (sg_bodies (upd_sbody e n f)).
Proof. intros H. cbn [upd_sbody sg_with_bodies sg_bodies]. induction (sg_bodies e) as [|b bs IH]; cbn; constructor; [|exact IH]. destruct (name_eqb (s_name b) n); [apply H|repeat split]. Qed.
Lemma same_mass_refls bs : Forall2 same_mass bs bs. Proof. induction bs; constructor; [repeat split|assumption]. Qed.

(** ** the mass matrix is diagonal and positive *)
Lemma mdotv_unit n M j i : (j < n)%nat -> mdotv n M (unit_vec j) i = M i j.
Proof.
  intros H. unfold mdotv. rewrite (rsum_single n j); [|exact H|intros k _ Hk; unfold unit_vec; destruct (Nat.eqb_spec k j); [contradiction|ring]].
  unfold unit_vec. rewrite Nat.eqb_refl. ring.
Qed.
Lemma mass_row e M v b Mb i : soft_ok e -> forallb ready (sg_bodies e) = true -> soft_mass_matrix e = Some M -> In b (sg_bodies e) -> s_M b = Some Mb -> (i < 3 * s_n b)%nat ->
  mdotv (3 * sg_N e) M v (3 * s_offset b + i)%nat = mdotv (3 * s_n b) (assembly_csr (s_T b) Mb) (fun j => v (3 * s_offset b + j)%nat) i.
Proof.
  intros HO HR HM Hb HMb Hi. assert (Bb : body_ok b) by (pose proof (so_bodies e HO) as HB; rewrite Forall_forall in HB; apply HB; exact Hb).
  rewrite <- (flat_unflat (mdotv (3 * sg_N e) M v)). unfold flat. replace ((3 * s_offset b + i) / 3)%nat with (s_offset b + i / 3)%nat by (rewrite Nat.mul_comm, Nat.div_add_l; lia).
  replace ((3 * s_offset b + i) mod 3)%nat with (i mod 3)%nat by (rewrite Nat.add_comm, Nat.mul_comm, Nat.mod_add; lia).
  rewrite (unflat_ext _ (mdotv (3 * sg_N e) M (flat (unflat v)))) by (intros k _; apply mdotv_ext'; intros j _; rewrite flat_unflat; reflexivity).
  rewrite (mass_at e M (unflat v) b Mb (i / 3)%nat HO HR HM Hb HMb) by (apply Nat.div_lt_upper_bound; lia).
  change (vcomp (prod_mat_vec (s_T b) Mb (view (unflat v) b) (i / 3)%nat) (i mod 3)%nat) with (flat (prod_mat_vec (s_T b) Mb (view (unflat v) b)) i).
  rewrite <- (assembly_product (s_n b) _ _ _ i (bo_mesh b Bb)). apply mdotv_ext'. intros j _.
  transitivity (flat (unflat v) (3 * s_offset b + j)%nat); [|apply flat_unflat]. unfold flat, view. f_equal; [f_equal|].
  - rewrite (Nat.mul_comm 3), Nat.div_add_l; lia.
  - rewrite (Nat.add_comm (3 * _)), (Nat.mul_comm 3), Nat.mod_add; lia.
Qed.
(** bodies with mass: every completely created body has a positive density and no node outside its tetrahedra *)
Definition massive (b : sbody) : Prop := (exists rho, 0 < rho /\ s_M b = Some (compute_mass_element_array rho (s_vol0 b) (s_lumped b))) /\
  forall n, (n < s_n b)%nat -> exists t a, In t (s_T b) /\ (a < 4)%nat /\ node t a = n.
Lemma volumes_positive x0 T I0 : compute_inverse_D0 x0 T = Some I0 -> Forall (fun v => 0 < v) (map (elem_volume x0) T).
Proof.
  intros H. apply invD0_forall in H. induction H as [|t i T I H H' IH]; cbn; constructor; [|exact IH]. apply H.
Qed.
Lemma mass_entries e M : soft_ok e -> forallb ready (sg_bodies e) = true -> soft_mass_matrix e = Some M -> (forall b, In b (sg_bodies e) -> massive b) ->
  forall i j, (i < 3 * sg_N e)%nat -> (j < 3 * sg_N e)%nat -> (i <> j -> M i j = 0) /\ (i = j -> 0 < M i j).
Proof.
  intros HO HR HM HMa i j Hi Hj.
  destruct (layout_locate _ _ _ (so_layout e HO) HR (i / 3)%nat) as (b & k & Hb & Hk & Ek). { split; [lia|]. apply Nat.div_lt_upper_bound; lia. }
  destruct (HMa b Hb) as [(rho & Hr & HMb) Hcov]. assert (Bb : body_ok b) by (pose proof (so_bodies e HO) as HB; rewrite Forall_forall in HB; apply HB; exact Hb).
  assert (Rb : ready b = true) by (rewrite forallb_forall in HR; apply HR; exact Hb).
  rewrite (bo_lumped b Bb) in HMb. set (r := (3 * k + i mod 3)%nat). assert (Ei : i = (3 * s_offset b + r)%nat). { pose proof (Nat.div_mod i 3 ltac:(lia)). unfold r. lia. }
  assert (Hr3 : (r < 3 * s_n b)%nat). { pose proof (Nat.mod_upper_bound i 3 ltac:(lia)). unfold r. lia. }
  pose proof (mass_row e M (unit_vec j) b _ r HO HR HM Hb HMb Hr3) as E. rewrite <- Ei in E. rewrite (mdotv_unit _ _ _ _ Hj) in E.
  assert (LV : length (s_T b) = length (s_vol0 b)) by (rewrite (bo_vol b Bb), map_length; reflexivity).
  assert (PV : Forall (fun v => 0 < v) (s_vol0 b)) by (rewrite (bo_vol b Bb); apply (volumes_positive _ _ _ (bo_inv b Bb Rb))).
  assert (IN : (3 * s_offset b <= j < 3 * s_offset b + 3 * s_n b)%nat -> M i j = mass_matrix (s_T b) (s_vol0 b) rho true r (j - 3 * s_offset b)%nat).
  { intros Hin. rewrite E. rewrite <- (mdotv_unit (3 * s_n b) _ (j - 3 * s_offset b)%nat r) by lia. apply mdotv_ext'. intros l Hl. unfold unit_vec. destruct (Nat.eqb_spec (3 * s_offset b + l) j), (Nat.eqb_spec l (j - 3 * s_offset b)); lia || reflexivity. }
  split.
  - intros Hne. destruct (le_lt_dec (3 * s_offset b) j) as [L1|L1]; [destruct (le_lt_dec (3 * s_offset b + 3 * s_n b) j) as [L2|L2]|].
    + rewrite E. unfold mdotv. apply rsum_zero. intros l Hl. unfold unit_vec. destruct (Nat.eqb_spec (3 * s_offset b + l) j); [lia|ring].
    + rewrite IN by lia. apply (C102_lumped_diagonal (s_n b)); [apply (bo_mesh b Bb)|exact Hr3|lia|lia].
    + rewrite E. unfold mdotv. apply rsum_zero. intros l Hl. unfold unit_vec. destruct (Nat.eqb_spec (3 * s_offset b + l) j); [lia|ring].
  - intros <-. rewrite IN by lia. replace (i - 3 * s_offset b)%nat with r by lia.
    pose proof (C102_positive_definite (s_n b) (s_T b) (s_vol0 b) rho true (unit_vec r) (bo_mesh b Bb) LV Hr PV Hcov) as P.
    assert (X : exists i0, (i0 < 3 * s_n b)%nat /\ unit_vec r i0 <> 0). { exists r. split; [exact Hr3|]. unfold unit_vec. rewrite Nat.eqb_refl. lra. } specialize (P X).
    rewrite (rsum_single _ r) in P; [|exact Hr3|intros l _ Hl; unfold unit_vec at 1; destruct (Nat.eqb_spec l r); [contradiction|ring]].
    rewrite mdotv_unit in P by exact Hr3. unfold unit_vec in P. rewrite Nat.eqb_refl in P. lra.
Qed.
Lemma diagonal_inverse n M : (forall i j, (i < n)%nat -> (j < n)%nat -> (i <> j -> M i j = 0) /\ (i = j -> 0 < M i j)) -> is_inverse n M (fun i j => if Nat.eqb i j then / M i i else 0).
Proof.
  intros H i j Hi Hj. unfold delta. split.
  - rewrite (rsum_single n i); [|exact Hi|intros k Hk Hne; destruct (H i k Hi Hk) as [Z _]; rewrite Z by (intros ->; contradiction); ring].
    destruct (Nat.eqb_spec i j) as [E|E]; [|ring]. destruct (H i i Hi Hi) as [_ P]. specialize (P eq_refl). field. lra.
  - rewrite (rsum_single n i); [|exact Hi|intros k Hk Hne; destruct (Nat.eqb_spec i k) as [->|_]; [contradiction|ring]].
    rewrite Nat.eqb_refl. destruct (Nat.eqb_spec i j) as [<-|E].
    + destruct (H i i Hi Hi) as [_ P]. specialize (P eq_refl). field. lra.
    + destruct (H i j Hi Hj) as [Z _]. rewrite (Z E). ring.
Qed.
