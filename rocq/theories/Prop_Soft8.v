(** Soft-body engine: surface interactions (C122), Coulomb friction (C123), unusable materials (C125). *)
From Coq Require Import Permutation.
From Verif Require Import Base ListProofs VecModel VecProofs ProxModel ProxSpec SolverModel SolverSpec SolverProofs ColorModel ColorProofs Prop_Solver BvhModel GridModel SurfModel VolModel RigidTypes StepModel ApiModel ApiProofs MechModel FemModel FemSpec FemProofs FemProofs2 Prop_Fem SoftModel SoftSpec SoftProofs SoftProofs2 SoftReach SoftProofs3 SoftProofs4 SoftFrame Prop_Soft Prop_Soft2 SoftDemo Prop_Soft3 Prop_Soft5 Prop_Soft6 Prop_Soft7.
From Verif Require Prop_Api.
Open Scope R_scope.

(** ** C122: surface interactions *)
Theorem C122_symmetric L A B : soft_get_interaction L A B = soft_get_interaction L B A.
Proof. unfold soft_get_interaction. rewrite (pair_key_comm A B). reflexivity. Qed.
(** creating one succeeds iff both materials exist, the pair has none yet, and mu is not negative; nothing else changes *)
Theorem C122_conditions e A B mu : (exists e', soft_create_interaction e A B mu = SDone e') <->
  find_material (sg_materials e) A <> None /\ find_material (sg_materials e) B <> None /\ soft_get_interaction (sg_lib e) A B = None /\ 0 <= mu.
Proof.
  unfold soft_create_interaction. split.
  - intros [e' H]. destruct (find_material _ A); [|discriminate]. destruct (find_material _ B); [|discriminate]. destruct (soft_get_interaction _ _ _); [discriminate|]. destruct (Rltb_spec mu 0); [discriminate|]. repeat split; try discriminate; lra.
  - intros (H1 & H2 & H3 & H4). destruct (find_material _ A); [|contradiction H1; reflexivity]. destruct (find_material _ B); [|contradiction H2; reflexivity]. rewrite H3. destruct (Rltb_spec mu 0); [lra|eauto].
Qed.
Lemma soft_create_inv e A B mu e' : soft_create_interaction e A B mu = SDone e' -> e' = sg_with_lib e (lib_set (sg_lib e) (pair_key A B) (mkInter (mkV mu 1 1) 0)) /\ lib_get (sg_lib e) (pair_key A B) = None /\ 0 <= mu.
Proof.
  unfold soft_create_interaction, soft_get_interaction. destruct (find_material _ A); [|discriminate]. destruct (find_material _ B); [|discriminate]. destruct (lib_get (sg_lib e) _) eqn:E; [discriminate|]. destruct (Rltb_spec mu 0); [discriminate|]. intros H. injection H as <-. repeat split. lra.
Qed.
Lemma soft_call_lib eigh axis c e e' : srun eigh axis c e = SDone e' \/ srun eigh axis c e = SRaised e' -> sg_lib e' = sg_lib e \/ exists A B mu, c = SCreateInteraction A B mu /\ soft_create_interaction e A B mu = SDone e'.
Proof.
  intros H. destruct c; cbn [srun] in H.
  7:{ destruct H as [H|H]; [right; eauto|]. left. unfold soft_create_interaction in H. repeat match type of H with context [match ?x with _ => _ end] => destruct x end; try discriminate H; injection H as <-; reflexivity. }
  all: left; unfold create_soft_body, create_dirichlet_conditions, create_traction_conditions, soft_set_velocity, set_spatial_coordinates, soft_set_type, create_material, soft_set_material, set_elasticity, set_viscosity, set_mass_density, set_constitutive_model, soft_set_gravity in H; cbv zeta in H.
  all: repeat match type of H with context [match ?x with _ => _ end] => destruct x end; destruct H as [H|H]; try discriminate H; injection H as <-; reflexivity.
Qed.
Lemma soft_call_get eigh axis c e e' k i : srun eigh axis c e = SDone e' \/ srun eigh axis c e = SRaised e' -> lib_get (sg_lib e) k = Some i -> lib_get (sg_lib e') k = Some i.
Proof.
  intros H HI. destruct (soft_call_lib _ _ _ _ _ H) as [->|(A & B & mu & _ & HC)]; [exact HI|]. apply soft_create_inv in HC as (-> & HN & _). cbn [sg_with_lib sg_lib]. rewrite lib_get_set. destruct (lkey_eqb_spec (pair_key A B) k); [congruence|exact HI].
Qed.
Lemma soft_simulate_lib inv cd sv fuel T e e' : (exists dts, soft_simulate inv cd sv fuel T e = SimEnd e' dts) \/ soft_simulate inv cd sv fuel T e = SimRaised e' -> sg_lib e' = sg_lib e.
Proof.
  intros H. assert (E : sim_engine e (soft_simulate inv cd sv fuel T e) = e') by (destruct H as [[d ->]| ->]; reflexivity). rewrite <- E. destruct (simulate_evolved inv cd sv fuel T e) as [X|X]; [apply (ev_lib _ _ X)|].
  rewrite (ev_lib _ _ X). unfold with_first_stepper. destruct (sg_stepper e); [reflexivity|]. destruct (soft_inverse_mass_matrix inv e); reflexivity.
Qed.
Lemma future_lib eigh axis e e' k i : soft_future eigh axis e e' -> lib_get (sg_lib e) k = Some i -> lib_get (sg_lib e') k = Some i.
Proof.
  intros H HI. induction H as [|e1 c e2 _ IH HC|e1 P _ IH|inv cd sv fuel T e1 e2 _ IH HC]; [exact HI|eapply soft_call_get; eassumption|exact IH|]. rewrite (soft_simulate_lib _ _ _ _ _ _ _ HC). exact IH.
Qed.
(** after create_surfaces_interaction(A, B, mu) both orders give the coefficient mu, for ever; creating it again raises *)
Theorem C122_created eigh axis e A B mu e1 e2 : soft_create_interaction e A B mu = SDone e1 -> soft_future eigh axis e1 e2 ->
  exists i, soft_get_interaction (sg_lib e2) A B = Some i /\ soft_get_interaction (sg_lib e2) B A = Some i /\ vx (i_mu i) = mu /\
  forall mu', soft_create_interaction e2 A B mu' = SRaised e2 /\ soft_create_interaction e2 B A mu' = SRaised e2.
Proof.
  intros HC HF. apply soft_create_inv in HC as (-> & HN & Hmu). exists (mkInter (mkV mu 1 1) 0).
  assert (G : soft_get_interaction (sg_lib e2) A B = Some (mkInter (mkV mu 1 1) 0)). { unfold soft_get_interaction. eapply future_lib; [exact HF|]. cbn [sg_with_lib sg_lib]. rewrite lib_get_set. destruct (lkey_eqb_spec (pair_key A B) (pair_key A B)); congruence. }
  split; [exact G|]. split; [rewrite C122_symmetric; exact G|]. split; [reflexivity|]. intros mu'. unfold soft_create_interaction. rewrite (C122_symmetric _ B A), G.
  destruct (find_material (sg_materials e2) A), (find_material (sg_materials e2) B); split; reflexivity.
Qed.
(** the pairs that a call does not mention keep what they had *)
Theorem C122_others eigh axis c e e' A' B' : srun eigh axis c e = SDone e' \/ srun eigh axis c e = SRaised e' ->
  (forall A B mu, c = SCreateInteraction A B mu -> ~ (A = A' /\ B = B') /\ ~ (A = B' /\ B = A')) -> soft_get_interaction (sg_lib e') A' B' = soft_get_interaction (sg_lib e) A' B'.
Proof.
  intros H HN. destruct (soft_call_lib _ _ _ _ _ H) as [->|(A & B & mu & Ec & HC)]; [reflexivity|]. destruct (HN _ _ _ Ec) as [N1 N2]. apply soft_create_inv in HC as (-> & _). unfold soft_get_interaction. cbn [sg_with_lib sg_lib]. rewrite lib_get_set.
  destruct (lkey_eqb_spec (pair_key A B) (pair_key A' B')) as [E|_]; [apply Prop_Api.pair_key_inj in E; tauto|reflexivity].
Qed.
Theorem C122_steps cd sv dt e e' : soft_step cd sv dt e = SDone e' \/ soft_step cd sv dt e = SRaised e' -> sg_lib e' = sg_lib e.
Proof. intros H. pose proof (step_evolved cd sv dt e) as HE. assert (X : outcome_engine (soft_step cd sv dt e) = e') by (destruct H as [-> | ->]; reflexivity). rewrite X in HE. apply (ev_lib _ _ HE). Qed.
(** a contact between two materials without an interaction of their own makes every step raise (the rigid-body engine uses the default one) *)
Lemma missing_raises eigh axis cd sv dt e cs cp A B ma mb : soft_reach eigh axis e -> cd e = Some cs -> In cp cs -> nth_error (sg_bodies e) (sc_A cp) = Some A -> nth_error (sg_bodies e) (sc_B cp) = Some B ->
  s_material A = Some ma -> s_material B = Some mb -> soft_get_interaction (sg_lib e) ma mb = None -> forall e', soft_step cd sv dt e <> SDone e'.
Proof.
  intros HR HC Hcp HA HB Ha Hb HG e' HS. pose proof (step_cd _ _ _ _ _ HS) as EC. assert (Hin : In cp (sg_contacts e')) by (rewrite HC in EC; injection EC as EC; rewrite <- EC; exact Hcp).
  destruct (C115_step_requires eigh axis cd sv dt e e' HR HS) as (_ & _ & H & _). destruct (H cp Hin) as (A' & B' & ma' & mb' & H1 & H2 & H3 & H4 & H5). apply H5. replace ma' with ma by congruence. replace mb' with mb by congruence. exact HG.
Qed.
Definition second_name : name := [2%nat].
Definition demo2_engine (I0 : list mat3) : sengine :=
  mkSE [(default_name, demo_material); (second_name, demo_material)] library_init sparameters_init
    [sb_with_material (demo_body I0 vzero vzero) second_name (compute_mass_element_array 1000 [elem_volume demo_x0 demo_elem] true) (compute_damping_element_array 0 [elem_volume demo_x0 demo_elem] true)] [] 4 None.
Lemma demo2_reach eigh I0 : compute_inverse_D0 demo_x0 [demo_elem] = Some I0 -> soft_reach eigh demo_axis (demo2_engine I0).
Proof.
  intros HI. pose proof (demo_reach eigh I0 vzero vzero HI) as R0.
  set (b := demo_body I0 vzero vzero). set (L := library_init). set (P := sparameters_init).
  assert (R1 : soft_reach eigh demo_axis (mkSE [(default_name, demo_material); (second_name, material_init eigh)] L P [b] [] 4 None)) by (apply (reach_done _ _ _ (SCreateMaterial second_name) _ R0); reflexivity).
  assert (R2 : soft_reach eigh demo_axis (mkSE [(default_name, demo_material); (second_name, demo_material)] L P [b] [] 4 None)) by (apply (reach_done _ _ _ (SSetModel second_name SVK) _ R1); reflexivity).
  apply (reach_done _ _ _ (SSetMaterial demo_name second_name) _ R2). reflexivity.
Qed.
(** although the two bodies have materials, and every pair of materials has the default friction in the rigid-body engine, the step raises *)
Theorem C122_default_refuted eigh : exists e, soft_reach eigh demo_axis e /\ stepper_fresh e /\ steppable e /\ (exists A, nth_error (sg_bodies e) (sc_A demo_contact) = Some A /\ s_material A = Some second_name) /\
  (exists e', soft_step (fun _ => Some []) (fun _ _ _ _ _ _ _ => Some vzeros) (1 / 1000) e = SDone e') /\
  forall dt sv e', soft_step (fun _ => Some [demo_contact]) sv dt e <> SDone e'.
Proof.
  destruct demo_D0 as [I0 HI]. pose proof (demo2_reach eigh I0 HI) as HR. assert (EM : exists M, soft_mass_matrix (demo2_engine I0) = Some M) by (eexists; reflexivity). destruct EM as [M EM].
  set (W := fun i j => if Nat.eqb i j then / M i i else 0). assert (HD : is_inverse 12 M W).
  { apply diagonal_inverse. apply (mass_entries (demo2_engine I0)); [exact (reach_ok _ _ _ HR)|reflexivity|exact EM|]. intros b [<-|[]]. split; [exists 1000; split; [lra|reflexivity]|]. apply (demo_massive I0 vzero vzero). }
  exists (sg_with_stepper (demo2_engine I0) (12%nat, W)).
  assert (EI : soft_inverse_mass_matrix demo_inv (demo2_engine I0) = Some (12%nat, W)) by (unfold soft_inverse_mass_matrix; rewrite EM; reflexivity).
  assert (R1 : soft_reach eigh demo_axis (sg_with_stepper (demo2_engine I0) (12%nat, W))) by (apply (reach_stepper _ _ demo_inv); [exact HR|reflexivity|exact EI]).
  assert (S1 : steppable (sg_with_stepper (demo2_engine I0) (12%nat, W))).
  { destruct (demo_stepper eigh vzero vzero) as (e & I1 & Ee & _ & W1 & _ & _ & _ & S1). subst e. destruct (S1 _ (or_introl eq_refl)) as (A1 & A2 & A3 & m & lam & mu & A4 & A5 & A6 & A7).
    intros b [<-|[]]. split; [reflexivity|]. split; [discriminate|]. split; [exact A3|]. exists demo_material, lam, mu. cbn in A4. injection A4 as <-. split; [reflexivity|]. split; [exact A5|]. split; [exact A6|exact A7]. }
  split; [exact R1|]. split; [exists M, W; split; [exact EM|]; split; [reflexivity|exact HD]|]. split; [exact S1|]. split; [eexists; split; reflexivity|]. split.
  - apply (C115_step_succeeds eigh demo_axis _ _ (1 / 1000) (sg_with_stepper (demo2_engine I0) (12%nat, W)) W [] R1 S1 eq_refl eq_refl). intros H. destruct H. reflexivity.
  - intros dt sv. eapply (missing_raises eigh demo_axis); [exact R1|reflexivity|left; reflexivity|reflexivity|reflexivity|reflexivity|reflexivity|reflexivity].
Qed.
Example C122_nonvacuous eigh : exists e e1, soft_reach eigh demo_axis e /\ soft_create_interaction e default_name second_name (1 / 2) = SDone e1 /\ soft_future eigh demo_axis e1 e1.
Proof.
  destruct demo_D0 as [I0 HI]. exists (demo2_engine I0). destruct (proj2 (C122_conditions (demo2_engine I0) default_name second_name (1 / 2))) as [e1 H].
  { split; [discriminate|]. split; [discriminate|]. split; [reflexivity|lra]. }
  exists e1. split; [apply demo2_reach; exact HI|]. split; [exact H|apply future_now].
Qed.

(** ** C123: Coulomb friction *)
(** the contact solver of the code, with the three schemes that keep the friction cone (C42) *)
Definition scheme_solver (s : scheme) (order : list nat -> list nat) (colour : nat -> Z) (S : sparams) : ssolver :=
  fun K n J WJT b mu fs => option_map fst (prox_solve s K n J WJT b mu fs order (group_contacts (greedy_groups K colour)) S).
Lemma reach_mu eigh axis e : soft_reach eigh axis e -> forall k i, lib_get (sg_lib e) k = Some i -> 0 <= vx (i_mu i).
Proof.
  induction 1 as [|e c e' _ IH HC|e P _ IH|inv e W _ IH HS HW|cd sv dt e e' _ IH HS]; intros k i Hk.
  - cbn [soft_engine_init sg_lib library_init lib_get] in Hk. destruct (RigidTypes.key_eqb _ k); [|discriminate]. injection Hk as <-. cbn. lra.
  - destruct (soft_call_lib _ _ _ _ _ HC) as [E|(A & B & mu & _ & HD)]; [rewrite E in Hk; eauto|]. apply soft_create_inv in HD as (-> & _ & Hmu). cbn [sg_with_lib sg_lib] in Hk. rewrite lib_get_set in Hk. destruct (RigidTypes.key_eqb _ k); [injection Hk as <-; cbn; exact Hmu|eauto].
  - exact (IH k i Hk).
  - exact (IH k i Hk).
  - rewrite (C122_steps _ _ _ _ _ HS) in Hk. eauto.
Qed.
(** every contact impulse pushes the bodies apart and obeys Coulomb's law with the coefficient of the pair of materials.
    (This is the impulse that changes the momenta of the bodies: C112_body_momentum.) *)
Theorem C123_cone eigh axis s order colour S e cs u' sol : soft_reach eigh axis e -> s <> ParallelJacobi -> (forall g, Permutation (order g) g) -> solver_answer (scheme_solver s order colour S) e cs u' sol ->
  forall k cp, nth_error cs k = Some cp -> exists A B ma mb i, nth_error (sg_bodies e) (sc_A cp) = Some A /\ nth_error (sg_bodies e) (sc_B cp) = Some B /\ s_material A = Some ma /\ s_material B = Some mb /\
    soft_get_interaction (sg_lib e) ma mb = Some i /\
    let n := vdiv (sc_n cp) (vnorm (sc_n cp)) in let p := contact_impulse sol k cp in 0 <= vdot p n /\ vnorm (vsub p (vscale (vdot p n) n)) <= vx (i_mu i) * vdot p n.
Proof.
  intros HR Hs Ho HA k cp Hk. destruct HA as [->|(J & W & mu & HJ & HW & Hmu & HS)]; [destruct k; discriminate|]. cbv zeta in *.
  pose proof Hmu as Hmu0. unfold soft_friction in Hmu. cbn [sg_with_contacts sg_bodies sg_contacts sg_lib] in Hmu. destruct (map_all _ cs) as [mus|] eqn:EM; [|discriminate]. injection Hmu as Hmu. destruct (map_all_nth _ _ _ EM) as [EL EN].
  assert (Hpos : forall j, (j < length cs)%nat -> 0 <= mu j).
  { intros j Hj. destruct (nth_error cs j) as [c|] eqn:Ej; [|apply nth_error_None in Ej; lia]. destruct (EN j c Ej) as (x & Hx & Hn). rewrite <- Hmu. rewrite (nth_error_nth _ _ _ Hn).
    destruct (nth_error (sg_bodies e) (sc_A c)) as [A|]; [|discriminate]. destruct (nth_error (sg_bodies e) (sc_B c)) as [B|]; [|discriminate]. destruct (s_material A) as [ma|]; [|discriminate]. destruct (s_material B) as [mb|]; [|discriminate].
    destruct (soft_get_interaction _ ma mb) as [i|] eqn:EI; [|discriminate]. injection Hx as <-. apply (reach_mu eigh axis e HR _ _ EI). }
  assert (HC : cone_ok (length cs) mu sol).
  { unfold scheme_solver in HS. destruct (prox_solve s _ _ _ _ _ _ _ _ _ S) as [[x st]|] eqn:EP; [|discriminate]. injection HS as <-. cbn [fst].
    destruct s; [eapply C42_gauss_seidel|eapply C42_parallel_gauss_seidel|contradiction Hs; reflexivity|eapply C42_hybrid_jacobi]; try eassumption; left; reflexivity. }
  assert (HL : (k < length cs)%nat) by (apply nth_error_Some; congruence). destruct (HC k HL) as [C1 C2]. unfold normal_of, friction_of in *.
  destruct (EN k cp Hk) as (x & Hx & Hn). assert (Em : mu k = x) by (rewrite <- Hmu; apply nth_error_nth; exact Hn).
  destruct (nth_error (sg_bodies e) (sc_A cp)) as [A|] eqn:EA; [|discriminate]. destruct (nth_error (sg_bodies e) (sc_B cp)) as [B|] eqn:EB; [|discriminate]. destruct (s_material A) as [ma|] eqn:Ema; [|discriminate]. destruct (s_material B) as [mb|] eqn:Emb; [|discriminate].
  destruct (soft_get_interaction _ ma mb) as [i|] eqn:EI; [|discriminate]. injection Hx as Hx. exists A, B, ma, mb, i. repeat (split; [first [reflexivity|assumption]|]).
  (* the frame *)
  unfold soft_jacobian in HJ. cbn [sg_with_contacts sg_bodies sg_contacts] in HJ. destruct (map_all _ (combine _ cs)) as [ts|] eqn:ET; [|discriminate]. destruct (map_all_nth _ _ _ ET) as [_ TN].
  assert (Ek : nth_error (combine (seq 0 (length cs)) cs) k = Some (k, cp)).
  { clear - Hk HL. assert (G : forall l s j, nth_error l j = Some cp -> nth_error (combine (seq s (length l)) l) j = Some ((s + j)%nat, cp)).
    { induction l as [|c l IH]; intros s j Hj; [destruct j; discriminate|]. destruct j as [|j]; cbn [length seq combine nth_error] in *; [injection Hj as ->; rewrite Nat.add_0_r; reflexivity|]. rewrite (IH (Datatypes.S s) j Hj). do 2 f_equal. lia. }
    apply (G cs 0%nat k Hk). }
  destruct (TN k _ Ek) as (ent & Hent & _). cbn [fst snd] in Hent. unfold soft_contact_entries in Hent. rewrite EA, EB in Hent. destruct (nth_error (s_T A) _) as [tA|]; [|discriminate]. destruct (nth_error (s_T B) _) as [tB|]; [|discriminate].
  assert (NZ : sc_n cp <> vzero) by (intros Z; rewrite Z, orthonormal_zero in Hent; discriminate). destruct (orthonormal_spec _ NZ) as (t & b & n & EO & En & T1 & B1 & N1 & TB & BN & NT & _).
  unfold contact_impulse. rewrite EO, <- En. clear HJ ET TN Hent EN EM HS HW Hmu0.
  set (l0 := sol (4 * k)%nat) in *. set (l1 := sol (4 * k + 1)%nat) in *. set (l2 := sol (4 * k + 2)%nat) in *. set (l3 := sol (4 * k + 3)%nat) in *.
  assert (PN : vdot (vadd (vadd (vscale l0 n) (vscale l1 t)) (vscale l2 b)) n = l0).
  { replace (vdot (vadd (vadd (vscale l0 n) (vscale l1 t)) (vscale l2 b)) n) with (l0 * vdot n n + l1 * vdot n t + l2 * vdot b n) by (clear; clearbody l0 l1 l2; destruct n, t, b; vunf; ring). rewrite N1, NT, BN. ring. }
  rewrite PN. split; [exact C1|]. rewrite <- Hx in Em. rewrite <- Em. eapply Rle_trans; [|exact C2]. unfold vnorm. apply sqrt_le_1_alt.
  match goal with |- vdot ?a ?a <= _ => replace (vdot a a) with (l1 * l1 * vdot t t + l2 * l2 * vdot b b + 2 * l1 * l2 * vdot t b) by (clear; clearbody l0 l1 l2; destruct n, t, b; vunf; ring) end.
  rewrite T1, B1, TB. vunf. pose proof (Rle_0_sqr l3) as Q3. unfold Rsqr in Q3. lra.
Qed.
(** in one step: the impulses of the cone are the ones that change the momenta *)
Theorem C123_step eigh axis cd s order colour S dt e e' : soft_reach eigh axis e -> stepper_fresh e -> s <> ParallelJacobi -> (forall g, Permutation (order g) g) -> soft_step cd (scheme_solver s order colour S) dt e = SDone e' ->
  exists p : nat -> vec3, (forall k cp, nth_error (sg_contacts e') k = Some cp -> exists A B ma mb i, nth_error (sg_bodies e) (sc_A cp) = Some A /\ nth_error (sg_bodies e) (sc_B cp) = Some B /\ s_material A = Some ma /\ s_material B = Some mb /\
      soft_get_interaction (sg_lib e) ma mb = Some i /\ let n := vdiv (sc_n cp) (vnorm (sc_n cp)) in 0 <= vdot (p k) n /\ vnorm (vsub (p k) (vscale (vdot (p k) n) n)) <= vx (i_mu i) * vdot (p k) n) /\
    forall b, In b (sg_bodies e) -> s_dirichlet b = [] -> exists b', In b' (sg_bodies e') /\ s_name b' = s_name b /\
      body_momentum b' (s_u b') = vadd (vadd (body_momentum b (s_u b)) (vscale dt (vtotal (s_n b) (applied_forces e b))))
        (over_contacts (sg_contacts e') (fun k cp => vscale (part (sg_bodies e) b (sc_B cp) (sc_wB cp) - part (sg_bodies e) b (sc_A cp) (sc_wA cp)) (p k))).
Proof.
  intros HR HF Hs Ho HS. destruct (C112_body_momentum eigh axis cd _ dt e e' HR HF HS) as (u' & sol & HA & HB).
  exists (fun k => match nth_error (sg_contacts e') k with Some cp => contact_impulse sol k cp | None => vzero end). split.
  - intros k cp Hk. rewrite Hk. apply (C123_cone eigh axis s order colour S e _ u' sol HR Hs Ho HA k cp Hk).
  - intros b Hb HD. destruct (HB b Hb HD) as (b' & H1 & H2 & H3). exists b'. split; [exact H1|]. split; [exact H2|]. rewrite H3. f_equal. unfold net_impulse, over_contacts. apply vtotal_ext. intros k _. destruct (nth_error (sg_contacts e') k) eqn:Ek; reflexivity.
Qed.
(** a step with a contact, solved by Gauss-Seidel with any parameters *)
Example C123_nonvacuous eigh S : exists e e', soft_reach eigh demo_axis e /\ stepper_fresh e /\ soft_step (fun _ => Some [demo_contact]) (scheme_solver GaussSeidel (fun g => g) (fun _ => 0%Z) S) (1 / 1000) e = SDone e' /\ sg_contacts e' = [demo_contact].
Proof.
  destruct (demo_stepper eigh (mkV 0 (-10) 0) vzero) as (e & I0 & Ee & HR & W & EW & R1 & F1 & S1). pose proof F1 as (M & W0 & F2 & F3 & F4). exists (sg_with_stepper e W).
  destruct (C115_step_succeeds eigh demo_axis (fun _ => Some [demo_contact]) (scheme_solver GaussSeidel (fun g => g) (fun _ => 0%Z) S) (1 / 1000) (sg_with_stepper e W) W0 [demo_contact] R1 S1 F3 eq_refl) as (e' & HS).
  { intros _. rewrite Ee. split; [apply demo_contacts_fine|]. split; [reflexivity|]. split; [|discriminate]. intros K n J WJT b mu fs HK. unfold scheme_solver.
    destruct (C43_returns GaussSeidel K n J WJT b mu fs (fun g => g) (group_contacts (greedy_groups K (fun _ => 0%Z))) S) as (x & st & E); [exact HK|]. rewrite E. discriminate. }
  exists e'. pose proof (step_cd _ _ _ _ _ HS) as EC. injection EC as EC. auto.
Qed.

(** ** C125: materials that cannot be simulated *)
Lemma elastic_no_stress T G F lam mu pk : T <> [] -> length F = length T -> length G = length T -> (forall F, pk F lam mu = None) -> compute_elastic_forces T G F lam mu pk = None.
Proof.
  intros HT HF HG HP. unfold compute_elastic_forces. destruct T as [|t T]; [contradiction HT; reflexivity|]. destruct F as [|F0 F]; [discriminate|]. destruct G as [|G0 G]; [discriminate|]. cbn [elastic_loop]. rewrite HP. reflexivity.
Qed.
Lemma no_stress_raises eigh axis cd sv dt e b m : soft_reach eigh axis e -> In b (sg_bodies e) -> s_T b <> [] -> material_of e b = Some m ->
  (first_lame (sm_E m) (sm_nu m) = None \/ forall F lam mu, pk1_stress (sm_model m) F lam mu = None) -> forall e', soft_step cd sv dt e <> SDone e'.
Proof.
  intros HRe Hb HT Hm HP e' HS. pose proof (reach_ok _ _ _ HRe) as HO. destruct (step_inv cd sv dt e e' HS) as (W & Fe & Ft & Fd & Fext & cs & q & HH). cbv zeta in HH. destruct HH as (H1 & HR & H3 & _).
  pose proof (collect_all_some _ _ _ _ H3 b Hb) as E. apply E. unfold body_elastic. destruct (compute_deformation_gradient _ _ _) as [F|] eqn:EF; [|reflexivity]. rewrite Hm. destruct (first_lame _ _) as [lam|] eqn:EL; [|reflexivity]. destruct (second_lame _ _) as [mu|]; [|reflexivity].
  destruct HP as [HP|HP]; [discriminate|]. assert (Bb : body_ok b) by (pose proof (so_bodies e HO) as HB; rewrite Forall_forall in HB; apply HB; exact Hb).
  destruct (s_T b) as [|t T] eqn:ET; [contradiction HT; reflexivity|]. unfold compute_elastic_forces. rewrite (bo_grad b Bb), ET. cbn [compute_outward_face_vectors map elastic_loop].
  destruct F as [|F0 F]; [reflexivity|]. rewrite HP. reflexivity.
Qed.
(** the material a new engine comes with, and every new material, is co-rotational; a step of an engine with a body of at least one
    tetrahedron of such a material always raises *)
Theorem C125_default_refuted eigh axis cd sv dt e b m : soft_reach eigh axis e -> In b (sg_bodies e) -> s_T b <> [] -> material_of e b = Some m -> sm_model m = sm_model (material_init eigh) -> forall e', soft_step cd sv dt e <> SDone e'.
Proof. intros HR Hb HT Hm HC. eapply no_stress_raises; try eassumption. right. intros F lam mu. rewrite HC. reflexivity. Qed.
(** a Poisson ratio of 1/2 is accepted by set_elasticity, but no step is possible with it *)
Theorem C125_incompressible_refuted eigh axis cd sv dt e mname E e1 b : soft_reach eigh axis e -> set_elasticity e mname E (1 / 2) = SDone e1 -> In b (sg_bodies e1) -> s_T b <> [] -> s_material b = Some mname -> forall e', soft_step cd sv dt e1 <> SDone e'.
Proof.
  intros HR HE Hb HT Hm. assert (R1 : soft_reach eigh axis e1) by (exact (reach_call eigh axis e (SSetElasticity mname E (1 / 2)) e1 HR (or_introl HE))).
  unfold set_elasticity in HE. destruct (find_material (sg_materials e) mname) as [m|] eqn:EM; [|discriminate]. destruct (Rleb E 0); [discriminate|]. destruct (_ || _)%bool; [discriminate|]. injection HE as <-.
  assert (EM1 : material_of (upd_material e mname (fun mt => mkMat (sm_model mt) (sm_c mt) (sm_rho mt) E (1 / 2))) b = Some (mkMat (sm_model m) (sm_c m) (sm_rho m) E (1 / 2))).
  { unfold material_of. rewrite Hm. unfold upd_material. cbn [sg_with_materials sg_materials]. rewrite (find_upd_material (sg_materials e) mname (fun mt => mkMat (sm_model mt) (sm_c mt) (sm_rho mt) E (1 / 2)) mname), EM, name_eqb_refl. reflexivity. }
  eapply (no_stress_raises eigh axis cd sv dt _ b); [exact R1|exact Hb|exact HT|exact EM1|]. left. cbn. unfold first_lame. destruct (Reqb_spec ((1 + 1 / 2) * (1 - 2 * (1 / 2))) 0) as [_|N]; [reflexivity|]. exfalso. apply N. field.
Qed.
Theorem C125_accepts e mname E : find_material (sg_materials e) mname <> None -> 0 < E -> exists e1, set_elasticity e mname E (1 / 2) = SDone e1.
Proof. intros H HE. unfold set_elasticity. destruct (find_material _ mname); [|contradiction H; reflexivity]. destruct (Rleb_spec E 0); [lra|]. destruct (Rltb_spec (1 / 2) 0); [lra|]. destruct (Rltb_spec (1 / 2) (1 / 2)); [lra|]. eexists. reflexivity. Qed.
(** with the other two models and other admissible constants the stress exists *)
Theorem C125_partial m : 0 < sm_E m -> 0 <= sm_nu m < 1 / 2 -> sm_model m = SVK \/ sm_model m = SNH -> exists lam mu, first_lame (sm_E m) (sm_nu m) = Some lam /\ second_lame (sm_E m) (sm_nu m) = Some mu /\ forall F, pk1_stress (sm_model m) F lam mu <> None.
Proof.
  intros HE Hn HM. unfold first_lame, second_lame. destruct (Reqb_spec ((1 + sm_nu m) * (1 - 2 * sm_nu m)) 0) as [Z|_]; [apply Rmult_integral in Z; lra|]. destruct (Reqb_spec (2 * (1 + sm_nu m)) 0) as [Z|_]; [lra|].
  eexists. eexists. split; [reflexivity|]. split; [reflexivity|]. intros F. destruct HM as [-> | ->]; [discriminate|]. cbn [pk1_stress SNH]. unfold snh_pk1.
  assert (P : 0 < sm_nu m * sm_E m / ((1 + sm_nu m) * (1 - 2 * sm_nu m)) + 5 / 6 * (sm_E m / (2 * (1 + sm_nu m)))).
  { assert (0 < (1 + sm_nu m) * (1 - 2 * sm_nu m)) by (apply Rmult_lt_0_compat; lra). assert (0 <= sm_nu m * sm_E m / ((1 + sm_nu m) * (1 - 2 * sm_nu m))) by (apply Rmult_le_pos; [apply Rmult_le_pos; lra|left; apply Rinv_0_lt_compat; assumption]).
    assert (0 < sm_E m / (2 * (1 + sm_nu m))) by (apply Rdiv_lt_0_compat; lra). lra. }
  destruct (Reqb_spec (sm_nu m * sm_E m / ((1 + sm_nu m) * (1 - 2 * sm_nu m)) + 5 / 6 * (sm_E m / (2 * (1 + sm_nu m)))) 0) as [Z|_]; [rewrite Z in P; lra|discriminate].
Qed.
Example C125_nonvacuous eigh : exists e e1 b, soft_reach eigh demo_axis e /\ set_elasticity e default_name 100000 (1 / 2) = SDone e1 /\ In b (sg_bodies e1) /\ s_T b <> [] /\ s_material b = Some default_name.
Proof.
  destruct demo_D0 as [I0 HI]. destruct (C125_accepts (demo_engine I0 vzero vzero) default_name 100000) as [e1 H]; [discriminate|lra|]. exists (demo_engine I0 vzero vzero), e1, (demo_body I0 vzero vzero). split; [apply demo_reach; exact HI|]. split; [exact H|].
  unfold set_elasticity in H. cbn [demo_engine sg_materials find_material] in H. rewrite name_eqb_refl in H. destruct (Rleb 100000 0); [discriminate|]. destruct (_ || _)%bool; [discriminate|]. injection H as <-. split; [left; reflexivity|]. split; [discriminate|reflexivity].
Qed.
(** ... and a body with the untouched default material *)
Example C125_nonvacuous_default eigh : exists e b m, soft_reach eigh demo_axis e /\ In b (sg_bodies e) /\ s_T b <> [] /\ material_of e b = Some m /\ sm_model m = sm_model (material_init eigh).
Proof.
  destruct demo_D0 as [I0 HI]. pose proof (reach_done _ _ _ (SSetModel default_name (COR eigh)) _ (demo_reach eigh I0 vzero vzero HI) eq_refl) as R1. eexists. exists (demo_body I0 vzero vzero). eexists. split; [exact R1|]. split; [left; reflexivity|]. split; [discriminate|]. split; reflexivity.
Qed.
