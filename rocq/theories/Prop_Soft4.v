(** Soft-body engine: failing calls (C116), stabilisation (C117), time (C118), bodies added later (C124). *)
From Verif Require Import Base ListProofs VecModel VecProofs SolverModel SolverProofs BvhModel GridModel SurfModel VolModel RigidTypes StepModel MechModel FemModel FemSpec FemProofs FemProofs2 SoftModel SoftSpec SoftProofs SoftProofs2 SoftReach SoftProofs3 SoftProofs4 SoftFrame Prop_Fem Prop_Soft Prop_Soft2 SoftDemo Prop_Soft3.
Open Scope R_scope.

(** ** C116: calls that raise *)
(** every call that raises leaves the engine as it was, except create_soft_body with a new name and set_material on a body that
    was not completely created *)
Definition exempt (e : sengine) (c : scall) : Prop :=
  match c with
  | SCreateBody n _ _ => find_sbody e n = None
  | SSetMaterial n _ => exists b, find_sbody e n = Some b /\ s_stage b = Registered
  | _ => False
  end.
Theorem C116_atomic eigh axis c e e' : ~ exempt e c -> srun eigh axis c e = SRaised e' -> e' = e.
Proof.
  intros HX. destruct c; cbn [srun exempt] in *.
  - unfold create_soft_body. destruct (find_sbody e n); [congruence|]. exfalso. apply HX. reflexivity.
  - unfold create_dirichlet_conditions. destruct (find_sbody e n) as [b|]; [|congruence]. destruct (s_stage b); congruence.
  - unfold create_traction_conditions. destruct (find_sbody e n) as [b|]; [|congruence]. destruct (ready b); congruence.
  - unfold soft_set_velocity. destruct (find_sbody e n) as [b|]; [|congruence]. destruct (ready b); congruence.
  - unfold set_spatial_coordinates. destruct (find_sbody e n) as [b|]; [|congruence]. destruct (ready b && _); congruence.
  - unfold soft_set_type. destruct (find_sbody e n) as [b|]; [|congruence]. destruct fixed; congruence.
  - unfold soft_create_interaction. destruct (find_material _ A); [|congruence]. destruct (find_material _ B); [|congruence]. destruct (soft_get_interaction _ _ _); [congruence|]. destruct (Rltb mu 0); congruence.
  - unfold create_material. destruct (find_material (sg_materials e) m); congruence.
  - unfold soft_set_material. destruct (find_sbody e n) as [b|] eqn:EB; [|congruence]. destruct (find_material (sg_materials e) m); [|congruence]. destruct (s_stage b) eqn:ES; try congruence. exfalso. apply HX. eauto.
  - unfold set_elasticity. destruct (find_material (sg_materials e) m); [|congruence]. destruct (Rleb E 0); [congruence|]. destruct (_ || _)%bool; congruence.
  - unfold set_viscosity. destruct (find_material (sg_materials e) m); [|congruence]. destruct (Rltb c 0); congruence.
  - unfold set_mass_density. destruct (find_material (sg_materials e) m); [|congruence]. destruct (Rltb rho 0); congruence.
  - unfold set_constitutive_model. destruct (find_material (sg_materials e) m); congruence.
  - unfold soft_set_gravity. destruct (find_sbody e n) as [b|]; congruence.
Qed.
(** ** what calls do to the list of bodies *)
Lemma upd_places e n f : (forall b, same_place b (f b)) -> Forall2 same_place (sg_bodies e) (sg_bodies (upd_sbody e n f)).
Proof. intros H. cbn [upd_sbody sg_with_bodies sg_bodies]. apply same_place_map. intros b. destruct (name_eqb (s_name b) n); [apply H|apply same_place_refl]. Qed.
Lemma places_refl bs : Forall2 same_place bs bs. Proof. induction bs; constructor; [apply same_place_refl|assumption]. Qed.
Lemma srun_places eigh axis c e : let e' := outcome_engine (srun eigh axis c e) in
  exists l more, sg_bodies e' = l ++ more /\ Forall2 same_place (sg_bodies e) l /\ sg_stepper e' = sg_stepper e /\ (sg_N e <= sg_N e')%nat.
Proof.
  cbv zeta. assert (Z : forall e2, sg_bodies e2 = sg_bodies e -> sg_N e2 = sg_N e -> sg_stepper e2 = sg_stepper e -> exists l more, sg_bodies e2 = l ++ more /\ Forall2 same_place (sg_bodies e) l /\ sg_stepper e2 = sg_stepper e /\ (sg_N e <= sg_N e2)%nat).
  { intros e2 E1 E2 E3. exists (sg_bodies e), []. rewrite app_nil_r. rewrite E2. repeat split; auto. apply places_refl. }
  assert (A : forall e2 b, sg_bodies e2 = sg_bodies e ++ [b] -> (sg_N e <= sg_N e2)%nat -> sg_stepper e2 = sg_stepper e -> exists l more, sg_bodies e2 = l ++ more /\ Forall2 same_place (sg_bodies e) l /\ sg_stepper e2 = sg_stepper e /\ (sg_N e <= sg_N e2)%nat).
  { intros e2 b E1 E2 E3. exists (sg_bodies e), [b]. repeat split; auto. apply places_refl. }
  assert (U : forall n f, (forall b, same_place b (f b)) -> exists l more, sg_bodies (upd_sbody e n f) = l ++ more /\ Forall2 same_place (sg_bodies e) l /\ sg_stepper (upd_sbody e n f) = sg_stepper e /\ (sg_N e <= sg_N (upd_sbody e n f))%nat).
  { intros n f Hf. exists (sg_bodies (upd_sbody e n f)), []. rewrite app_nil_r. repeat split; auto. apply upd_places. exact Hf. }
  destruct c; cbn [srun].
  - unfold create_soft_body. destruct (find_sbody e n); [apply Z; reflexivity|]. cbv zeta. destruct (axis V); [|eapply A; [reflexivity|apply le_n|reflexivity]]. destruct (axis_sort V T v) as [[V' T']|]; [|eapply A; [reflexivity|apply le_n|reflexivity]].
    destruct (map_all elem_of_row T') as [Te|]; [|eapply A; [reflexivity|apply le_n|reflexivity]]. destruct (compute_inverse_D0 _ Te); [|eapply A; [reflexivity|apply le_n|reflexivity]]. eapply A; [reflexivity|cbn; lia|reflexivity].
  - unfold create_dirichlet_conditions. destruct (find_sbody e n) as [b|]; [|apply Z; reflexivity]. destruct (s_stage b); try (apply Z; reflexivity); apply U; repeat split.
  - unfold create_traction_conditions. destruct (find_sbody e n) as [b|]; [|apply Z; reflexivity]. destruct (ready b); [|apply Z; reflexivity]. apply U; repeat split.
  - unfold soft_set_velocity. destruct (find_sbody e n) as [b|]; [|apply Z; reflexivity]. destruct (ready b); [|apply Z; reflexivity]. apply U; repeat split.
  - unfold set_spatial_coordinates. destruct (find_sbody e n) as [b|]; [|apply Z; reflexivity]. destruct (ready b && _); [|apply Z; reflexivity]. apply U; repeat split.
  - unfold soft_set_type. destruct (find_sbody e n) as [b|]; [|apply Z; reflexivity]. destruct fixed; [|apply Z; reflexivity]. apply U; repeat split.
  - unfold soft_create_interaction. destruct (find_material _ A0); [|apply Z; reflexivity]. destruct (find_material _ B); [|apply Z; reflexivity]. destruct (soft_get_interaction _ _ _); [apply Z; reflexivity|]. destruct (Rltb mu 0); apply Z; reflexivity.
  - unfold create_material. destruct (find_material (sg_materials e) m); apply Z; reflexivity.
  - unfold soft_set_material. destruct (find_sbody e n) as [b|]; [|apply Z; reflexivity]. destruct (find_material (sg_materials e) m); [|apply Z; reflexivity]. destruct (s_stage b); apply U; repeat split.
  - unfold set_elasticity. destruct (find_material (sg_materials e) m); [|apply Z; reflexivity]. destruct (Rleb E 0); [apply Z; reflexivity|]. destruct (_ || _)%bool; apply Z; reflexivity.
  - unfold set_viscosity. destruct (find_material (sg_materials e) m); [|apply Z; reflexivity]. destruct (Rltb c 0); apply Z; reflexivity.
  - unfold set_mass_density. destruct (find_material (sg_materials e) m); [|apply Z; reflexivity]. destruct (Rltb rho 0); apply Z; reflexivity.
  - unfold set_constitutive_model. destruct (find_material (sg_materials e) m); apply Z; reflexivity.
  - unfold soft_set_gravity. destruct (find_sbody e n) as [b|]; [|apply Z; reflexivity]. apply U; repeat split.
Qed.
(** ** properties of the list of bodies that no future changes *)
Definition places_kept (P : sengine -> Prop) : Prop := forall e e', P e -> (sg_stepper e <> None -> sg_stepper e' = sg_stepper e) -> (sg_N e <= sg_N e')%nat ->
  (exists l more, sg_bodies e' = l ++ more /\ Forall2 same_place (sg_bodies e) l) -> P e'.
Lemma motion_places bs bs' : Forall2 motion bs bs' -> Forall2 same_place bs bs'.
Proof. apply Forall2_imp. intros b b' (x & u & ->). repeat split. Qed.
Lemma future_kept eigh axis P e0 e : places_kept P -> P e0 -> soft_future eigh axis e0 e -> P e.
Proof.
  intros HP H0 HF. induction HF as [|e c e' H IH HC|e Q H IH|inv cd sv fuel T e e' H IH HC].
  - exact H0.
  - assert (X : outcome_engine (srun eigh axis c e) = e') by (destruct HC as [-> | ->]; reflexivity). destruct (srun_places eigh axis c e) as (l & more & P1 & P2 & P3 & P4). rewrite X in *.
    apply (HP e e' IH); eauto.
  - apply (HP e _ IH); [reflexivity|apply le_n|]. exists (sg_bodies e), []. rewrite app_nil_r. split; [reflexivity|apply places_refl].
  - assert (X : sim_engine e (soft_simulate inv cd sv fuel T e) = e') by (destruct HC as [[dts ->] | ->]; reflexivity). destruct (simulate_evolved inv cd sv fuel T e) as [E|E]; rewrite X in E; destruct E as [_ _ E3 E4 _ _ _ _ E9].
    + apply (HP e e' IH); [intros _; exact E4|lia|]. exists (sg_bodies e'), []. rewrite app_nil_r. split; [reflexivity|apply motion_places; exact E9].
    + assert (Y : sg_N (with_first_stepper inv e) = sg_N e /\ sg_bodies (with_first_stepper inv e) = sg_bodies e /\ (sg_stepper e <> None -> sg_stepper (with_first_stepper inv e) = sg_stepper e)).
      { unfold with_first_stepper. destruct (sg_stepper e) eqn:ES; [repeat split; auto|]. destruct (soft_inverse_mass_matrix inv e); repeat split; auto; intros HN; destruct HN; reflexivity. }
      destruct Y as (Y1 & Y2 & Y3). apply (HP e e' IH); [intros HN; rewrite E4; apply Y3; exact HN|lia|]. exists (sg_bodies e'), []. rewrite app_nil_r. split; [reflexivity|]. rewrite <- Y2. apply motion_places. exact E9.
Qed.
Lemma Forall2_in_l {A B} (P : A -> B -> Prop) l l' a : Forall2 P l l' -> In a l -> exists b, In b l' /\ P a b.
Proof. induction 1 as [|x y l l' H H' IH]; intros Ha; [destruct Ha|]. destruct Ha as [<-|Ha]; [exists y; split; [left; reflexivity|exact H]|]. destruct (IH Ha) as (b & Hb & HP). exists b. split; [right; exact Hb|exact HP]. Qed.
(** a body that was not completely created *)
Definition broken (e : sengine) : Prop := exists b, In b (sg_bodies e) /\ ready b = false.
Lemma broken_kept : places_kept broken.
Proof.
  intros e e' (b & Hb & HR) _ _ (l & more & E & H). destruct (Forall2_in_l _ _ _ _ H Hb) as (b' & Hb' & _ & S & _). exists b'. rewrite E. split; [apply in_or_app; left; exact Hb'|]. unfold ready in *. rewrite S. exact HR.
Qed.
Lemma broken_raises cd sv dt e : broken e -> soft_step cd sv dt e = SRaised e.
Proof.
  intros (b & Hb & HR). unfold soft_step. destruct (sg_stepper e) as [[d W]|]; [|reflexivity]. destruct (forallb ready (sg_bodies e)) eqn:E; [|reflexivity]. rewrite forallb_forall in E. rewrite (E b Hb) in HR. discriminate.
Qed.
(** an engine in which no step can succeed *)
Definition dead (e : sengine) : Prop := forall inv cd sv fuel T, exists e', soft_simulate inv cd sv (S fuel) T e = SimRaised e'.
Lemma broken_dead e : broken e -> dead e.
Proof.
  intros HB inv cd sv fuel T. unfold soft_simulate. destruct (Rleb T 0) eqn:ET; [eauto|]. apply Rleb_false in ET.
  assert (L : forall e1, broken e1 -> exists e', soft_loop (soft_step cd sv) (S fuel) T e1 = SimRaised e'). { intros e1 H1. cbn [soft_loop]. destruct (Reqb_spec T 0); [lra|]. cbv zeta. rewrite (broken_raises _ _ _ e1 H1). eauto. }
  destruct (sg_stepper e); [apply L; exact HB|]. destruct (soft_inverse_mass_matrix inv e) as [W|]; [|eauto]. apply L. exact HB.
Qed.
(** a create_soft_body with a new name that raises spoils the engine for good: whatever is called afterwards, no simulate returns *)
Theorem C116_create_refuted eigh axis n V T e e' : find_sbody e n = None -> srun eigh axis (SCreateBody n V T) e = SRaised e' ->
  find_sbody e' n <> None /\ forall e2, soft_future eigh axis e' e2 -> dead e2.
Proof.
  intros HN H. assert (B : exists b, sg_bodies e' = sg_bodies e ++ [b] /\ s_name b = n /\ ready b = false).
  { cbn [srun] in H. unfold create_soft_body in H. rewrite HN in H. cbv zeta in H. destruct (axis V); [|injection H as <-; eexists; repeat split]. destruct (axis_sort V T v) as [[V' T']|]; [|injection H as <-; eexists; repeat split].
    destruct (map_all elem_of_row T') as [Te|]; [|injection H as <-; eexists; repeat split]. destruct (compute_inverse_D0 _ Te); [discriminate|injection H as <-; eexists; repeat split]. }
  destruct B as (b & E & En & HR). split.
  - unfold find_sbody. rewrite E. intros HF. pose proof (find_none _ _ HF b) as EN. cbv beta in EN. assert (Hin : In b (sg_bodies e ++ [b])) by (apply in_or_app; right; left; reflexivity). specialize (EN Hin). rewrite En, name_eqb_refl in EN. discriminate.
  - intros e2 HF. apply broken_dead. apply (future_kept eigh axis broken e' e2 broken_kept); [|exact HF]. exists b. rewrite E. split; [apply in_or_app; right; left; reflexivity|exact HR].
Qed.

(** an inverted tetrahedron is enough *)
Definition inverted_T : list (list Z) := [[0; 2; 1; 3]%Z].
Lemma inverted_sort : axis_sort demo_V inverted_T (mkV 1 0 0) = Some (demo_V, inverted_T).
Proof.
  assert (U : v3_unit (mkV 1 0 0) = mkV 1 0 0). { unfold v3_unit, vnorm. replace (vdot (mkV 1 0 0) (mkV 1 0 0)) with 1 by (vunf; ring). rewrite sqrt_1. vunf. f_equal; field. }
  unfold axis_sort. rewrite U. cbv zeta.
  assert (A1 : argsort (fun k => nth k (map (fun p => vdot p (mkV 1 0 0)) demo_V) 0) (length demo_V) = [0; 1; 2; 3]%nat).
  { unfold argsort, isort, demo_V. cbn [length seq fold_right insert map nth]. repeat (rewrite Rleb_t by (vunf; lra); cbn [insert]). reflexivity. }
  rewrite A1.
  assert (A2 : argsort (fun k => INR (nth k [0; 1; 2; 3]%nat 0%nat)) (length (map (fun p => vdot p (mkV 1 0 0)) demo_V)) = [0; 1; 2; 3]%nat).
  { unfold argsort, isort, demo_V. cbn [length seq fold_right insert map nth]. repeat (rewrite Rleb_t by (apply le_INR; lia); cbn [insert]). reflexivity. }
  rewrite A2. reflexivity.
Qed.
Example C116_nonvacuous eigh e n : find_sbody e n = None -> exists e', srun eigh demo_axis (SCreateBody n demo_V inverted_T) e = SRaised e'.
Proof.
  intros HN. cbn [srun]. unfold create_soft_body. rewrite HN. cbv zeta. unfold demo_axis. rewrite inverted_sort. cbn [map_all elem_of_row inverted_T Z.to_nat].
  change (Pos.to_nat 1) with 1%nat. change (Pos.to_nat 2) with 2%nat. change (Pos.to_nat 3) with 3%nat. change (fun n0 : nat => nth n0 demo_V vzero) with demo_x0.
  destruct (compute_inverse_D0 demo_x0 [(0, 2, 1, 3)%nat]) as [I0|] eqn:E; [|match goal with |- context [compute_inverse_D0 ?a ?b] => change (compute_inverse_D0 a b) with (compute_inverse_D0 demo_x0 [(0, 2, 1, 3)%nat]) end; rewrite E; eexists; reflexivity]. exfalso.
  assert (X : exists inv, compute_inverse_D0 demo_x0 [(0, 2, 1, 3)%nat] = Some inv) by eauto. apply (C105_raises demo_x0 demo_x0) in X. inversion X as [|? ? H _]; subst. revert H.
  unfold elem_volume, corners. cbn [node]. unfold demo_x0, demo_V. cbn [nth]. vunf. lra.
Qed.

(** ** C124: bodies added after the first simulate *)
Definition stale (e : sengine) : Prop := exists d W, sg_stepper e = Some (d, W) /\ (d < 3 * sg_N e)%nat.
Lemma stale_kept : places_kept stale.
Proof. intros e e' (d & W & E & L) H1 H2 _. exists d, W. split; [rewrite H1; [exact E|rewrite E; discriminate]|lia]. Qed.
Lemma stale_dead e : stale e -> dead e.
Proof.
  intros (d & W & E & L) inv cd sv fuel T. unfold soft_simulate. destruct (Rleb T 0) eqn:ET; [eauto|]. apply Rleb_false in ET. rewrite E. cbn [soft_loop]. destruct (Reqb_spec T 0); [lra|]. cbv zeta.
  destruct (soft_step cd sv _ e) as [e1|e1] eqn:ES; [|eauto]. destruct (step_inv _ _ _ _ _ ES) as (W' & Fe & Ft & Fd & Fext & cs & q & HH). cbv zeta in HH. destruct HH as (H1 & _). rewrite E in H1. injection H1 as -> _. lia.
Qed.
Lemma reach_stepper_dim eigh axis e : soft_reach eigh axis e -> forall d W, sg_stepper e = Some (d, W) -> (d <= 3 * sg_N e)%nat.
Proof.
  induction 1 as [|e c e' H IH HC|e P H IH|inv e W0 H IH HN HI|cd sv dt e e' H IH HC]; intros d W HS.
  - discriminate.
  - assert (X : outcome_engine (srun eigh axis c e) = e') by (destruct HC as [-> | ->]; reflexivity). destruct (srun_places eigh axis c e) as (l & more & P1 & P2 & P3 & P4). rewrite X in *. rewrite P3 in HS. specialize (IH d W HS). lia.
  - exact (IH d W HS).
  - unfold soft_inverse_mass_matrix in HI. destruct (soft_mass_matrix e); [|discriminate]. destruct (inv _ m); [|discriminate]. injection HI as <-. cbn in HS. injection HS as <- _. cbn. lia.
  - assert (X : outcome_engine (soft_step cd sv dt e) = e') by (destruct HC as [-> | ->]; reflexivity). pose proof (step_evolved cd sv dt e) as HE. rewrite X in HE. rewrite (ev_stepper _ _ HE) in HS. rewrite (ev_N _ _ HE). exact (IH d W HS).
Qed.
(** a body that is created after the first simulate makes every later simulate raise, whatever is called in between *)
Theorem C124_added_body_refuted eigh axis n V T e e' : soft_reach eigh axis e -> sg_stepper e <> None -> V <> [] -> srun eigh axis (SCreateBody n V T) e = SDone e' ->
  forall e2, soft_future eigh axis e' e2 -> dead e2.
Proof.
  intros HR HS HV H e2 HF. apply stale_dead. apply (future_kept eigh axis stale e' e2 stale_kept); [|exact HF].
  destruct (sg_stepper e) as [[d W]|] eqn:ES; [|contradiction HS; reflexivity]. pose proof (reach_stepper_dim eigh axis e HR d W ES) as L. exists d, W.
  cbn [srun] in H. unfold create_soft_body in H. destruct (find_sbody e n); [discriminate|]. cbv zeta in H. destruct (axis V); [|discriminate]. destruct (axis_sort V T v) as [[V' T']|] eqn:EA; [|discriminate].
  destruct (map_all elem_of_row T') as [Te|]; [|discriminate]. destruct (compute_inverse_D0 _ Te); [|discriminate]. injection H as <-. cbn [sg_stepper sg_N]. split; [exact ES|].
  destruct (axis_sort_range V T v V' T' EA) as [EL _]. destruct V as [|p V]; [contradiction|]. cbn [length] in EL. lia.
Qed.
(** as long as no body is added the dimensions fit, and a body added before the first simulate is counted *)
Theorem C124_partial eigh axis inv e W c e' : soft_reach eigh axis e -> sg_stepper e = None -> soft_inverse_mass_matrix inv e = Some W -> (forall n V T, c <> SCreateBody n V T) ->
  srun eigh axis c (sg_with_stepper e W) = SDone e' -> exists W', sg_stepper e' = Some ((3 * sg_N e')%nat, W').
Proof.
  intros HR HN HI HC H. assert (Q : sg_N e' = sg_N (sg_with_stepper e W) /\ sg_stepper e' = sg_stepper (sg_with_stepper e W)).
  { revert H. generalize (sg_with_stepper e W). clear - HC. intros e H. destruct c; cbn [srun] in H; try (exfalso; eapply HC; reflexivity).
    - unfold create_dirichlet_conditions in H. destruct (find_sbody e n) as [b|]; [|discriminate]. destruct (s_stage b); try discriminate; injection H as <-; split; reflexivity.
    - unfold create_traction_conditions in H. destruct (find_sbody e n) as [b|]; [|discriminate]. destruct (ready b); [|discriminate]. injection H as <-; split; reflexivity.
    - unfold soft_set_velocity in H. destruct (find_sbody e n) as [b|]; [|discriminate]. destruct (ready b); [|discriminate]. injection H as <-; split; reflexivity.
    - unfold set_spatial_coordinates in H. destruct (find_sbody e n) as [b|]; [|discriminate]. destruct (ready b && _); [|discriminate]. injection H as <-; split; reflexivity.
    - unfold soft_set_type in H. destruct (find_sbody e n) as [b|]; [|discriminate]. destruct fixed; [|discriminate]. injection H as <-; split; reflexivity.
    - unfold soft_create_interaction in H. destruct (find_material _ A); [|discriminate]. destruct (find_material _ B); [|discriminate]. destruct (soft_get_interaction _ _ _); [discriminate|]. destruct (Rltb mu 0); [discriminate|]. injection H as <-; split; reflexivity.
    - unfold create_material in H. destruct (find_material (sg_materials e) m); [discriminate|]. injection H as <-; split; reflexivity.
    - unfold soft_set_material in H. destruct (find_sbody e n) as [b|]; [|discriminate]. destruct (find_material (sg_materials e) m); [|discriminate]. destruct (s_stage b); try discriminate; injection H as <-; split; reflexivity.
    - unfold set_elasticity in H. destruct (find_material (sg_materials e) m); [|discriminate]. destruct (Rleb E 0); [discriminate|]. destruct (_ || _)%bool; [discriminate|]. injection H as <-; split; reflexivity.
    - unfold set_viscosity in H. destruct (find_material (sg_materials e) m); [|discriminate]. destruct (Rltb c 0); [discriminate|]. injection H as <-; split; reflexivity.
    - unfold set_mass_density in H. destruct (find_material (sg_materials e) m); [|discriminate]. destruct (Rltb rho 0); [discriminate|]. injection H as <-; split; reflexivity.
    - unfold set_constitutive_model in H. destruct (find_material (sg_materials e) m); [|discriminate]. injection H as <-; split; reflexivity.
    - unfold soft_set_gravity in H. destruct (find_sbody e n) as [b|]; [|discriminate]. injection H as <-; split; reflexivity. }
  destruct Q as [-> ->]. unfold soft_inverse_mass_matrix in HI. destruct (soft_mass_matrix e); [|discriminate]. destruct (inv _ m) as [W0|]; [|discriminate]. injection HI as <-. exists W0. reflexivity.
Qed.
Example C124_nonvacuous eigh : exists e e', soft_reach eigh demo_axis e /\ sg_stepper e <> None /\ demo_V <> [] /\ srun eigh demo_axis (SCreateBody [2%nat] demo_V demo_T) e = SDone e'.
Proof.
  destruct (demo_stepper eigh vzero vzero) as (e & I0 & Ee & HR & W & EW & R1 & F1 & S1). exists (sg_with_stepper e W). destruct demo_D0 as [I1 H1].
  eexists. split; [exact R1|]. split; [discriminate|]. split; [discriminate|]. subst e. cbn [srun]. unfold create_soft_body. cbn [find_sbody sg_with_stepper demo_engine sg_bodies find demo_body s_name name_eqb demo_name Nat.eqb andb]. unfold demo_axis. rewrite demo_sort.
  cbn [map_all elem_of_row demo_T Z.to_nat]. change (Pos.to_nat 1) with 1%nat. change (Pos.to_nat 2) with 2%nat. change (Pos.to_nat 3) with 3%nat. change (0, 1, 2, 3)%nat with demo_elem. change (fun n : nat => nth n demo_V vzero) with demo_x0.
  cbv zeta. rewrite H1. reflexivity.
Qed.
