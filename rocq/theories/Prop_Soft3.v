(** Soft-body engine: the hypotheses of C112, whole simulations (C112, C118), failing calls (C116), adding bodies (C124). *)
From Verif Require Import Base ListProofs VecModel VecProofs SolverModel SolverProofs BvhModel GridModel SurfModel VolModel RigidTypes StepModel MechModel FemModel FemSpec FemProofs FemProofs2 SoftModel SoftSpec SoftProofs SoftProofs2 SoftReach SoftProofs3 SoftProofs4 SoftFrame Prop_Soft Prop_Soft2 SoftDemo.
Open Scope R_scope.

(** ** C112, continued *)
(** the matrix inverted by the first simulate is diagonal with positive entries, so it has an inverse, when all bodies have mass *)
Theorem C112_mass_invertible eigh axis e M : soft_reach eigh axis e -> forallb ready (sg_bodies e) = true -> soft_mass_matrix e = Some M -> (forall b, In b (sg_bodies e) -> massive b) ->
  (forall i j, (i < 3 * sg_N e)%nat -> (j < 3 * sg_N e)%nat -> (i <> j -> M i j = 0) /\ (i = j -> 0 < M i j)) /\ exists W, is_inverse (3 * sg_N e) M W.
Proof.
  intros HRe HR HM Hm. pose proof (mass_entries e M (reach_ok _ _ _ HRe) HR HM Hm) as H. split; [exact H|]. eexists. apply diagonal_inverse. exact H.
Qed.
(** the first simulate stores the inverse of the mass matrix ... *)
Theorem C112_fresh_first inv e W : inv_correct inv -> soft_inverse_mass_matrix inv e = Some W -> stepper_fresh (sg_with_stepper e W).
Proof.
  intros HI H. unfold soft_inverse_mass_matrix in H. destruct (soft_mass_matrix e) as [M|] eqn:EM; [|discriminate]. destruct (inv _ M) as [W0|] eqn:EI; [|discriminate]. injection H as <-.
  exists M, W0. split; [exact EM|]. split; [reflexivity|]. apply (HI _ _ _ EI).
Qed.
(** ... which stays the inverse of the mass matrix through all steps, and all calls except create_soft_body and set_material *)
Theorem C112_fresh_steps cd sv dt e e' : stepper_fresh e -> soft_step cd sv dt e = SDone e' \/ soft_step cd sv dt e = SRaised e' -> stepper_fresh e'.
Proof. intros HF H. pose proof (step_evolved cd sv dt e) as HE. assert (X : outcome_engine (soft_step cd sv dt e) = e') by (destruct H as [-> | ->]; reflexivity). rewrite X in HE. eapply evolved_fresh; eassumption. Qed.
Definition keeps_mass (c : scall) : Prop := match c with SCreateBody _ _ _ | SSetMaterial _ _ => False | _ => True end.
Theorem C112_fresh_calls eigh axis c e e' : keeps_mass c -> stepper_fresh e -> srun eigh axis c e = SDone e' \/ srun eigh axis c e = SRaised e' -> stepper_fresh e'.
Proof.
  intros HK HF H. assert (X : outcome_engine (srun eigh axis c e) = e') by (destruct H as [-> | ->]; reflexivity). rewrite <- X. clear X H.
  assert (U : forall n f, (forall b, same_mass b (f b)) -> stepper_fresh (upd_sbody e n f)) by (intros n f Hf; apply (fresh_same e); [apply upd_mass; exact Hf|reflexivity|reflexivity|exact HF]).
  assert (Z : forall e2, sg_bodies e2 = sg_bodies e -> sg_N e2 = sg_N e -> sg_stepper e2 = sg_stepper e -> stepper_fresh e2) by (intros e2 E1 E2 E3; apply (fresh_same e); [rewrite E1; apply same_mass_refls|exact E2|exact E3|exact HF]).
  destruct c; try destruct HK; cbn [srun].
  - unfold create_dirichlet_conditions. destruct (find_sbody e n) as [b|]; [|exact HF]. destruct (s_stage b); try exact HF; apply U; repeat split.
  - unfold create_traction_conditions. destruct (find_sbody e n) as [b|]; [|exact HF]. destruct (ready b); [|exact HF]. apply U; repeat split.
  - unfold soft_set_velocity. destruct (find_sbody e n) as [b|]; [|exact HF]. destruct (ready b); [|exact HF]. apply U; repeat split.
  - unfold set_spatial_coordinates. destruct (find_sbody e n) as [b|]; [|exact HF]. destruct (ready b && _); [|exact HF]. apply U; repeat split.
  - unfold soft_set_type. destruct (find_sbody e n) as [b|]; [|exact HF]. destruct fixed; [|exact HF]. apply U; repeat split.
  - unfold soft_create_interaction. destruct (find_material _ A); [|exact HF]. destruct (find_material _ B); [|exact HF]. destruct (soft_get_interaction _ _ _); [exact HF|]. destruct (Rltb mu 0); [exact HF|]. apply Z; reflexivity.
  - unfold create_material. destruct (find_material (sg_materials e) m); [exact HF|]. apply Z; reflexivity.
  - unfold set_elasticity. destruct (find_material (sg_materials e) m); [|exact HF]. destruct (Rleb E 0); [exact HF|]. destruct (_ || _)%bool; [exact HF|]. apply Z; reflexivity.
  - unfold set_viscosity. destruct (find_material (sg_materials e) m); [|exact HF]. destruct (Rltb c 0); [exact HF|]. apply Z; reflexivity.
  - unfold set_mass_density. destruct (find_material (sg_materials e) m); [|exact HF]. destruct (Rltb rho 0); [exact HF|]. apply Z; reflexivity.
  - unfold set_constitutive_model. destruct (find_material (sg_materials e) m); [|exact HF]. apply Z; reflexivity.
  - unfold soft_set_gravity. destruct (find_sbody e n) as [b|]; [|exact HF]. apply U; repeat split.
Qed.
(** whole simulations: an isolated world conserves its momentum and angular momentum over any number of steps *)
Lemma Forall2_in_r {A B} (P : A -> B -> Prop) l l' b : Forall2 P l l' -> In b l' -> exists a, In a l /\ P a b.
Proof. induction 1 as [|x y l l' H H' IH]; intros Hb; [destruct Hb|]. destruct Hb as [<-|Hb]; [exists x; split; [left; reflexivity|exact H]|]. destruct (IH Hb) as (a & Ha & HP). exists a. split; [right; exact Ha|exact HP]. Qed.
Lemma evolved_isolated e e' : evolved e e' -> isolated e -> isolated e'.
Proof. intros HE HI b Hb. destruct (Forall2_in_r _ _ _ _ (ev_bodies _ _ HE) Hb) as (a & Ha & x & u & ->). exact (HI a Ha). Qed.
Lemma evolved_free e e' : evolved e e' -> (forall b, In b (sg_bodies e) -> s_dirichlet b = []) -> forall b, In b (sg_bodies e') -> s_dirichlet b = [].
Proof. intros HE HI b Hb. destruct (Forall2_in_r _ _ _ _ (ev_bodies _ _ HE) Hb) as (a & Ha & x & u & ->). exact (HI a Ha). Qed.
Lemma evolved_material e e' : evolved e e' -> forall b m, In b (sg_bodies e') -> material_of e' b = Some m -> exists a, In a (sg_bodies e) /\ material_of e a = Some m.
Proof. intros HE b m Hb Hm. destruct (Forall2_in_r _ _ _ _ (ev_bodies _ _ HE) Hb) as (a & Ha & x & u & ->). exists a. split; [exact Ha|]. unfold material_of in *. rewrite (ev_materials _ _ HE) in Hm. exact Hm. Qed.
(** contact points of a collision detection: barycentric coordinates that sum to the same number, the two points coincide *)
Definition momentum_contacts (cd : sengine -> option (list scontact)) : Prop := forall e cs cp, cd e = Some cs -> In cp cs -> wsum (sc_wA cp) = wsum (sc_wB cp).
Definition meeting_contacts (cd : sengine -> option (list scontact)) : Prop := forall e cs cp, cd e = Some cs -> In cp cs ->
  contact_point (sg_bodies e) s_x (sc_A cp) (sc_tetA cp) (sc_wA cp) = contact_point (sg_bodies e) s_x (sc_B cp) (sc_tetB cp) (sc_wB cp).
Definition total_momentum (e : sengine) : vec3 := vsum_over (fun b => body_momentum b (s_u b)) (sg_bodies e).
Definition total_angular_momentum (e : sengine) : vec3 := vsum_over (fun b => body_angular_momentum b (s_x b) (s_u b)) (sg_bodies e).
Lemma step_cd cd sv dt e e' : soft_step cd sv dt e = SDone e' -> cd e = Some (sg_contacts e').
Proof. intros HS. destruct (step_inv cd sv dt e e' HS) as (W & Fe & Ft & Fd & Fext & cs & q & HH). cbv zeta in HH. destruct HH as (H1 & HR & H3 & H4 & H5 & H6 & H7 & H8 & HE). rewrite HE. exact H7. Qed.
Lemma loop_conserves eigh axis cd sv fuel : momentum_contacts cd -> forall T e e' dts, soft_reach eigh axis e -> stepper_fresh e -> isolated e -> (forall b, In b (sg_bodies e) -> s_dirichlet b = []) ->
  soft_loop (soft_step cd sv) fuel T e = SimEnd e' dts ->
  total_momentum e' = total_momentum e /\ ((forall b m, In b (sg_bodies e) -> material_of e b = Some m -> sm_model m = SVK \/ sm_model m = SNH) -> meeting_contacts cd -> total_angular_momentum e' = total_angular_momentum e).
Proof.
  intros HC. induction fuel as [|fuel IH]; intros T e e' dts HR HF HI HD; cbn [soft_loop]; (destruct (Reqb T 0); [intros H; injection H as <- <-; split; reflexivity|]); [discriminate|]. cbv zeta.
  set (dt := Rmin _ _). destruct (soft_step cd sv dt e) as [e1|e1] eqn:ES; [|discriminate]. destruct (soft_loop _ fuel (T - dt) e1) as [| e2 d2 |] eqn:EL; try discriminate. intros H. injection H as <- <-.
  pose proof (step_evolved cd sv dt e) as HE. rewrite ES in HE. cbn [outcome_engine] in HE.
  assert (R1 : soft_reach eigh axis e1) by (eapply reach_step; [exact HR|left; exact ES]).
  destruct (IH (T - dt) e1 e2 d2 R1 (evolved_fresh _ _ HE HF) (evolved_isolated _ _ HE HI) (evolved_free _ _ HE HD) EL) as [P1 P2].
  destruct (C112_conservation eigh axis cd sv dt e e1 HR HF HI ES HD) as [Q1 Q2]. { intros cp Hcp. apply (HC e _ cp (step_cd _ _ _ _ _ ES) Hcp). }
  split; [rewrite P1; exact Q1|]. intros HM HP. rewrite P2; [apply Q2; [exact HM|]|intros b m Hb Hm; destruct (evolved_material _ _ HE b m Hb Hm) as (a & Ha & Em); apply (HM a m Ha Em)|exact HP].
  intros cp Hcp. apply (HP e _ cp (step_cd _ _ _ _ _ ES) Hcp).
Qed.
(** the first simulate of an engine (or a later one, if the stepper is still fresh) *)
Theorem C112_simulate eigh axis inv cd sv fuel T e e' dts : soft_reach eigh axis e -> (sg_stepper e = None /\ inv_correct inv \/ stepper_fresh e) -> isolated e -> (forall b, In b (sg_bodies e) -> s_dirichlet b = []) ->
  momentum_contacts cd -> soft_simulate inv cd sv fuel T e = SimEnd e' dts ->
  total_momentum e' = total_momentum e /\ ((forall b m, In b (sg_bodies e) -> material_of e b = Some m -> sm_model m = SVK \/ sm_model m = SNH) -> meeting_contacts cd -> total_angular_momentum e' = total_angular_momentum e).
Proof.
  intros HR HF HI HD HC HS. unfold soft_simulate in HS. destruct (Rleb T 0); [discriminate|]. destruct (sg_stepper e) as [W|] eqn:EW.
  - destruct HF as [[HN _]|HF]; [discriminate|]. eapply loop_conserves; eassumption.
  - destruct (soft_inverse_mass_matrix inv e) as [W|] eqn:EI; [|discriminate]. assert (HV : inv_correct inv). { destruct HF as [[_ HV]|(M & W' & _ & E & _)]; [exact HV|rewrite EW in E; discriminate]. }
    assert (R1 : soft_reach eigh axis (sg_with_stepper e W)) by (eapply reach_stepper; eassumption).
    exact (loop_conserves eigh axis cd sv fuel HC T (sg_with_stepper e W) e' dts R1 (C112_fresh_first inv e W HV EI) HI HD HS).
Qed.
(** a tetrahedron drifting through empty space *)
Example C112_nonvacuous eigh : let v := mkV 1 2 3 in exists e e', soft_reach eigh demo_axis e /\ stepper_fresh e /\ isolated e /\ (forall b, In b (sg_bodies e) -> s_dirichlet b = []) /\
  soft_step (fun _ => Some []) (fun _ _ _ _ _ _ _ => None) (1 / 1000) e = SDone e' /\ (forall b m, In b (sg_bodies e) -> material_of e b = Some m -> sm_model m = SVK \/ sm_model m = SNH) /\
  momentum_contacts (fun _ => Some []) /\ meeting_contacts (fun _ => Some []) /\ total_momentum e = vscale (1000 / 6) v /\ (forall b, In b (sg_bodies e) -> massive b).
Proof.
  cbv zeta. destruct (demo_stepper eigh vzero (mkV 1 2 3)) as (e & I0 & Ee & HR & W & EW & R1 & F1 & S1). exists (sg_with_stepper e W).
  destruct F1 as (M & W0 & F1). pose proof F1 as (F2 & F3 & F4).
  destruct (C115_step_succeeds eigh demo_axis (fun _ => Some []) (fun _ _ _ _ _ _ _ => None) (1 / 1000) (sg_with_stepper e W) W0 [] R1 S1 F3 eq_refl) as (e' & HS). { intros H. destruct H. reflexivity. }
  exists e'. split; [exact R1|]. split; [exists M, W0; exact F1|]. subst e.
  split. { intros b [<-|[]]. split; [reflexivity|]. split; [reflexivity|]. intros C HC. cbn in HC. injection HC as <-. reflexivity. }
  split; [intros b [<-|[]]; reflexivity|]. split; [exact HS|]. split. { intros b m [<-|[]] Hm. cbn in Hm. injection Hm as <-. left. reflexivity. }
  split; [intros e cs cp H HI; injection H as <-; destruct HI|]. split; [intros e cs cp H HI; injection H as <-; destruct HI|].
  split; [|intros b [<-|[]]; apply demo_massive]. unfold total_momentum. cbn [sg_with_stepper demo_engine sg_bodies vsum_over]. unfold body_momentum. cbn [demo_body s_M s_n s_T s_u].
  rewrite (Prop_Fem.C102_total_mass 4 [demo_elem] _ 1000 true (mkV 1 2 3)); [|constructor; [intros a; destruct a as [|[|[|a]]]; cbn; lia|constructor]|reflexivity]. rewrite demo_volume. unfold sum. cbn [fold_right]. vunf. f_equal; field.
Qed.
