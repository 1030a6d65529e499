(** C106-C110: elastic forces, tractions, energies and Dirichlet conditions of the soft-body simulator. *)
From Verif Require Import Base VecModel VecProofs SolverModel SolverProofs StepModel ConProofs MechModel MechSpec MechProofs PolarProofs FemModel FemSpec FemProofs FemProofs2 Prop_Fem.
Open Scope R_scope.

(** the elastic energy and the elastic forces of a mesh with rest positions [x0] in the state [x], computed the way the solver does it
    (solver.py:687-728 and 907-943): volumes, face vectors and inverse edge matrices at rest, then F, then stress or energy.
    [None] = an exception. *)
Definition mesh_energy (m : constitutive) (lam mu : R) (x0 : field) (T : list elem) (x : field) : option R :=
  match compute_inverse_D0 x0 T with
  | None => None
  | Some inv => match compute_deformation_gradient x T inv with
                | None => None
                | Some F => compute_elastic_energy (map (elem_volume x0) T) F lam mu (energy_density m)
                end
  end.
Definition mesh_forces (m : constitutive) (lam mu : R) (x0 : field) (T : list elem) (x : field) : option field :=
  match compute_inverse_D0 x0 T with
  | None => None
  | Some inv => match compute_deformation_gradient x T inv with
                | None => None
                | Some F => compute_elastic_forces T (compute_outward_face_vectors x0 T) F lam mu (pk1_stress m)
                end
  end.
Lemma mesh_forces_work m lam mu N x0 T x Fe : valid_mesh N T -> mesh_forces m lam mu x0 T x = Some Fe ->
  exists L, T = map q_t L /\ compute_inverse_D0 x0 T = Some (map q_i L) /\ Forall (el_ok x0 x (fun A => pk1_stress m A lam mu)) L /\
    forall h, work N Fe h = sum (map (fun q => - (elem_volume x0 (q_t q) * m3dot (q_P q) (mmul (edges h (q_t q)) (q_i q)))) L).
Proof.
  unfold mesh_forces. intros HT. destruct (compute_inverse_D0 x0 T) as [inv|] eqn:EI; [|discriminate]. destruct (compute_deformation_gradient x T inv) as [F|] eqn:EF; [|discriminate]. intros E.
  destruct (elastic_work N x0 T inv x F lam mu _ Fe HT EI EF E) as (L & H1 & H2 & H3 & H4 & H5). exists L. subst inv. auto.
Qed.
(** moving the nodes from x in direction h *)
Definition moved (x h : field) (s : R) : field := fun n => vadd (x n) (vscale s (h n)).

(** ** C106: elastic forces are the negative gradient of the elastic energy *)
Theorem C106_gradient m lam mu N x0 T x Fe :
  (forall F P, pk1_stress m F lam mu = Some P -> is_gradient (fun A => energy_density m A lam mu) F P) ->
  valid_mesh N T -> mesh_forces m lam mu x0 T x = Some Fe ->
  forall h, exists delta e, 0 < delta /\ (forall s, Rabs s < delta -> mesh_energy m lam mu x0 T (moved x h s) = Some (e s)) /\ derivable_pt_lim e 0 (- work N Fe h).
Proof.
  intros Hm HT HF h. destruct (mesh_forces_work m lam mu N x0 T x Fe HT HF) as (L & H1 & H2 & H3 & H4).
  destruct (energy_derivative x0 x h lam mu (energy_density m) (pk1_stress m) L H3) as (delta & e & P & E & D).
  { intros q Hq. apply Hm. rewrite Forall_forall in H3. apply (H3 q Hq). }
  exists delta, e. split; [exact P|]. split.
  - intros s Hs. unfold mesh_energy. rewrite H2. rewrite H1. apply (E s Hs).
  - rewrite H4. assert (S : forall f, - sum (map (fun q => - (f q)) L) = sum (map f L)).
    { intros f. clear. induction L as [|q L IH]; cbn [map sum fold_right]; [ring|]. unfold sum in IH. rewrite <- IH. ring. }
    rewrite (S (fun q => elem_volume x0 (q_t q) * m3dot (q_P q) (mmul (edges h (q_t q)) (q_i q)))). exact D.
Qed.
(** ... which covers the Saint Venant-Kirchhoff model without further conditions *)
Theorem C106_svk lam mu N x0 T x Fe : valid_mesh N T -> mesh_forces SVK lam mu x0 T x = Some Fe ->
  forall h, exists delta e, 0 < delta /\ (forall s, Rabs s < delta -> mesh_energy SVK lam mu x0 T (moved x h s) = Some (e s)) /\ derivable_pt_lim e 0 (- work N Fe h).
Proof. apply C106_gradient. intros F P E. apply svk_gradient. exact E. Qed.
(** SVK forces exist exactly for states without inverted tetrahedra *)
Theorem C106_svk_defined lam mu x0 T x : Forall (fun t => 0 < elem_volume x0 t) T -> (mesh_forces SVK lam mu x0 T x = None <-> Exists (fun t => elem_volume x t <= 0) T).
Proof.
  intros H0. unfold mesh_forces. destruct (proj2 (invD0_spec x0 T) H0) as [inv EI]. rewrite EI. destruct (compute_deformation_gradient x T inv) as [F|] eqn:EF.
  - split; [|intros X; apply (F_none x T inv) in X; congruence]. intros E. exfalso. pose proof (invD0_forall x0 T inv EI) as AI.
    assert (LI : length T = length inv) by (clear - AI; induction AI; cbn; lia). pose proof (F_forall x T inv F EF LI) as AF.
    assert (LF : length F = length T). { assert (length (combine T inv) = length F) by (clear - AF; induction AF; cbn; lia). rewrite combine_length in H. lia. }
    unfold compute_elastic_forces, compute_outward_face_vectors in E. revert E LF. clear. generalize fzero. revert F. induction T as [|t T IH]; intros [|Fe F] y; cbn [map elastic_loop length]; intros E L; try discriminate; try lia.
    cbn [pk1_stress SVK svk_pk1] in E. apply (IH _ _ E). lia.
  - split; [intros _; apply (F_none x T inv); exact EF|reflexivity].
Qed.
(** the stable Neo-Hookean model violates it: at rest the forces vanish, but the energy decreases under expansion *)
Theorem C106_snh_refuted : ~ (forall lam mu N x0 T x Fe, 0 < lam -> 0 < mu -> valid_mesh N T -> mesh_forces SNH lam mu x0 T x = Some Fe ->
  forall h, exists delta e, 0 < delta /\ (forall s, Rabs s < delta -> mesh_energy SNH lam mu x0 T (moved x h s) = Some (e s)) /\ derivable_pt_lim e 0 (- work N Fe h)).
Proof.
  intros H. assert (V : Forall (fun t => 0 < elem_volume unit_tet t) one_tet).
  { constructor; [|constructor]. unfold elem_volume, corners, unit_tet. cbn [node]. vunf. lra. }
  destruct (proj2 (invD0_spec unit_tet one_tet) V) as [inv EI]. pose proof (invD0_forall _ _ _ EI) as AI. inversion AI as [|? i ? inv' [V0 I0] AI']; subst. inversion AI'; subst. clear AI AI'.
  assert (EF : compute_deformation_gradient unit_tet one_tet [i] = Some [mid]).
  { unfold compute_deformation_gradient, compute_D. cbn [map_all one_tet]. rewrite (proj2 (elem_D_some _ _ (edges unit_tet (0, 1, 2, 3)%nat)) (conj V0 eq_refl)). cbn [combine map fst snd].
    pose proof (m3inv_inv _ _ I0) as (_ & -> & _). reflexivity. }
  assert (RM : is_rotation mid) by (split; munf; [f_equal; ring|ring]).
  assert (ES : snh_pk1 mid 1 1 = Some mzero) by (apply snh_rest; [exact RM|lra]).
  set (Fe := add_face_forces fzero (0, 1, 2, 3)%nat mzero (face_vectors unit_tet (0, 1, 2, 3)%nat)).
  assert (EFe : mesh_forces SNH 1 1 unit_tet one_tet unit_tet = Some Fe).
  { unfold mesh_forces. rewrite EI, EF. unfold compute_elastic_forces, compute_outward_face_vectors. cbn [map one_tet elastic_loop pk1_stress SNH]. rewrite ES. reflexivity. }
  assert (W : forall h, work 4 Fe h = 0).
  { intros h. unfold Fe. rewrite (add_face_work 4) by (intros a; destruct a as [|[|[|a]]]; cbn; lia). rewrite work_fzero. destruct (face_vectors unit_tet (0, 1, 2, 3)%nat) as [[[g0 g1] g2] g3]. cbn [face_work].
    rewrite !mvec_mzero, !vdot_zero_l. ring. }
  destruct (H 1 1 4%nat unit_tet one_tet unit_tet Fe Rlt_0_1 Rlt_0_1 one_tet_valid EFe unit_tet) as (delta & e & P & E & D). rewrite W in D.
  destruct (snh_gradient_log2 mid 1 1 mzero mid ES) as (e2 & G1 & G2).
  assert (K : forall s, Rabs s < Rmin delta 1 -> e s = elem_volume unit_tet (0, 1, 2, 3)%nat * e2 s).
  { intros s Hs. assert (S1 : Rabs s < delta) by (eapply Rlt_le_trans; [exact Hs|apply Rmin_l]). assert (S2 : Rabs s < 1) by (eapply Rlt_le_trans; [exact Hs|apply Rmin_r]).
    specialize (E s S1). unfold mesh_energy in E. rewrite EI in E. change (moved unit_tet unit_tet s) with (fline unit_tet unit_tet s) in E.
    unfold compute_deformation_gradient, compute_D in E. cbn [map_all one_tet] in E.
    assert (V2 : 0 < elem_volume (fline unit_tet unit_tet s) (0, 1, 2, 3)%nat).
    { apply Rabs_def2 in S2. unfold elem_volume, corners, fline, unit_tet. cbn [node]. assert (0 < (1 + s) * (1 + s) * (1 + s)) by (repeat apply Rmult_lt_0_compat; lra). vunf. lra. }
    rewrite (proj2 (elem_D_some _ _ (edges (fline unit_tet unit_tet s) (0, 1, 2, 3)%nat)) (conj V2 eq_refl)) in E. cbn [combine map fst snd compute_elastic_energy] in E.
    rewrite edges_line, mmul_line in E. pose proof (m3inv_inv _ _ I0) as (_ & M & _). rewrite M in E. cbn [energy_density SNH] in E. unfold one_tet in E. cbn [map compute_elastic_energy] in E. rewrite G1 in E. injection E as <-. ring. }
  assert (D2 : derivable_pt_lim e 0 (elem_volume unit_tet (0, 1, 2, 3)%nat * (m3dot mzero mid + 4 / 3 * 1 * (1 - / ln 2) / (m3trace (mmul (mT mid) mid) + 1) * m3dot mid mid))).
  { assert (Q : 0 < Rmin delta 1) by (apply Rmin_glb_lt; lra).
    apply (derivable_pt_lim_locally_ext (fun s => elem_volume unit_tet (0, 1, 2, 3)%nat * e2 s) e 0 (- Rmin delta 1) (Rmin delta 1)); [lra| |apply derivable_pt_lim_scal; exact G2].
    intros z Hz. symmetry. apply K. apply Rabs_def1; lra. }
  pose proof (uniqueness_limite _ _ _ _ D D2) as X. replace (m3dot mzero mid) with 0 in X by mring. replace (m3dot mid mid) with 3 in X by mring. replace (m3trace (mmul (mT mid) mid)) with 3 in X by mring.
  assert (VV : elem_volume unit_tet (0, 1, 2, 3)%nat = 1 / 6) by (unfold elem_volume, corners, unit_tet; cbn [node]; vunf; field). rewrite VV in X.
  pose proof ln2_lt1 as L2. assert (1 - / ln 2 = 0) by lra. assert (/ ln 2 > 1); [|lra]. rewrite <- Rinv_1. apply Rinv_lt_contravar; lra.
Qed.
Example C106_nonvacuous : exists Fe, mesh_forces SVK 1 1 unit_tet one_tet (fun n => vscale 2 (unit_tet n)) = Some Fe.
Proof.
  destruct (mesh_forces SVK 1 1 unit_tet one_tet (fun n => vscale 2 (unit_tet n))) as [Fe|] eqn:E; [exists Fe; reflexivity|]. exfalso.
  apply C106_svk_defined in E. 2:{ constructor; [|constructor]. unfold elem_volume, corners, unit_tet. cbn [node]. vunf. lra. }
  inversion E as [? ? V|? ? V]; subst; [|inversion V]. revert V. unfold elem_volume, corners, unit_tet. cbn [node]. vunf. lra.
Qed.

(** ** C107: elastic forces are internal forces *)
(** their sum is zero, for every constitutive model and every state *)
Theorem C107_no_net_force m lam mu N x0 T x Fe : valid_mesh N T -> mesh_forces m lam mu x0 T x = Some Fe -> vtotal N Fe = vzero.
Proof.
  intros HT HF. destruct (mesh_forces_work m lam mu N x0 T x Fe HT HF) as (L & H1 & H2 & H3 & H4). apply vdot_ext. intros c. rewrite vtotal_dot, H4.
  assert (Z : forall t, edges (fun _ => c) t = mzero) by (intros t; unfold edges; clear; mring). clear. induction L as [|q L IH]; cbn [map sum fold_right]; [destruct c; vunf; ring|]. unfold sum in IH. rewrite IH.
  assert (Z : edges (fun _ => c) (q_t q) = mzero) by (unfold edges; clear; mring). rewrite Z. generalize (q_P q) (q_i q) (elem_volume x0 (q_t q)). clear. intros P i v. destruct P, i, c. munf. ring.
Qed.
(** if the model's Kirchhoff stress P F^T is symmetric (C97, C98) they exert no torque either *)
Theorem C107_no_net_torque m lam mu N x0 T x Fe : (forall F P, pk1_stress m F lam mu = Some P -> symmetric (mmul P (mT F))) ->
  valid_mesh N T -> mesh_forces m lam mu x0 T x = Some Fe -> torque N x Fe = vzero.
Proof.
  intros Hs HT HF. destruct (mesh_forces_work m lam mu N x0 T x Fe HT HF) as (L & H1 & H2 & H3 & H4). apply vdot_ext. intros w. rewrite torque_dot, H4.
  replace (vdot w vzero) with 0 by (destruct w; vunf; ring). clear - Hs H3. induction H3 as [|q L (V0 & I0 & V1 & EF & EP) HL IH]; cbn [map sum fold_right]; [reflexivity|]. unfold sum in IH. rewrite IH.
  assert (E : edges (fun n => vcross w (x n)) (q_t q) = mmul (mkM 0 (- vz w) (vy w) (vz w) 0 (- vx w) (- vy w) (vx w) 0) (edges x (q_t q))).
  { unfold edges. generalize (x (node (q_t q) 0)) (x (node (q_t q) 1)) (x (node (q_t q) 2)) (x (node (q_t q) 3)). clear. intros. mring. }
  rewrite E, mmul_assoc3, <- EF. specialize (Hs _ _ EP). unfold symmetric in Hs. clear - Hs. destruct w as [w1 w2 w3]. cbn [vx vy vz]. revert Hs. generalize (q_P q) (q_F q) (elem_volume x0 (q_t q)). intros P F v Hs.
  assert (S01 : m01 (mmul P (mT F)) = m10 (mmul P (mT F))) by (rewrite <- Hs at 2; destruct P, F; reflexivity).
  assert (S02 : m02 (mmul P (mT F)) = m20 (mmul P (mT F))) by (rewrite <- Hs at 2; destruct P, F; reflexivity).
  assert (S12 : m12 (mmul P (mT F)) = m21 (mmul P (mT F))) by (rewrite <- Hs at 2; destruct P, F; reflexivity).
  clear Hs. assert (D : m3dot P (mmul (mkM 0 (- w3) w2 w3 0 (- w1) (- w2) w1 0) F) =
    w3 * (m10 (mmul P (mT F)) - m01 (mmul P (mT F))) + w2 * (m02 (mmul P (mT F)) - m20 (mmul P (mT F))) + w1 * (m21 (mmul P (mT F)) - m12 (mmul P (mT F)))).
  { clear. destruct P, F. munf. ring. }
  rewrite D, S01, S02, S12. ring.
Qed.
Theorem C107_no_net_torque_models lam mu N x0 T x Fe : valid_mesh N T ->
  (mesh_forces SVK lam mu x0 T x = Some Fe \/ mesh_forces SNH lam mu x0 T x = Some Fe) -> torque N x Fe = vzero.
Proof.
  intros HT [H|H]; [apply (C107_no_net_torque SVK lam mu N x0 T x Fe); [intros F P; apply svk_stress_symmetric|exact HT|exact H]|
    apply (C107_no_net_torque SNH lam mu N x0 T x Fe); [intros F P; apply snh_stress_symmetric|exact HT|exact H]].
Qed.
(** an undeformed body, wherever it has been moved and however it has been turned, feels no elastic force at any node *)
Theorem C107_rigid_motion m lam mu N x0 T Q c Fe : pk1_stress m Q lam mu = Some mzero -> is_rotation Q ->
  valid_mesh N T -> mesh_forces m lam mu x0 T (fun n => vadd (mvec Q (x0 n)) c) = Some Fe -> forall n, (n < N)%nat -> Fe n = vzero.
Proof.
  intros Hm HQ HT HF. apply (work_inj N Fe fzero). intros h. rewrite work_fzero.
  destruct (mesh_forces_work m lam mu N x0 T _ Fe HT HF) as (L & H1 & H2 & H3 & H4). rewrite H4. clear H1 H2 H4. induction H3 as [|q L (V0 & I0 & V1 & EF & EP) HL IH]; cbn [map sum fold_right]; [reflexivity|]. unfold sum in IH. rewrite IH.
  rewrite edges_affine, mmul_assoc3 in EF. pose proof (m3inv_inv _ _ I0) as (_ & M & _). rewrite M, mmul_id_r in EF. rewrite EF, Hm in EP. injection EP as <-.
  generalize (mmul (edges h (q_t q)) (q_i q)). intros A. destruct A. munf. ring.
Qed.
Theorem C107_rigid_motion_models lam mu N x0 T Q c Fe : is_rotation Q -> lam + 5 / 6 * mu <> 0 -> valid_mesh N T ->
  (mesh_forces SVK lam mu x0 T (fun n => vadd (mvec Q (x0 n)) c) = Some Fe \/ mesh_forces SNH lam mu x0 T (fun n => vadd (mvec Q (x0 n)) c) = Some Fe) ->
  forall n, (n < N)%nat -> Fe n = vzero.
Proof.
  intros HQ Hl HT [H|H].
  - apply (C107_rigid_motion SVK lam mu N x0 T Q c Fe); auto. apply svk_rest. apply orth_rotation. exact HQ.
  - apply (C107_rigid_motion SNH lam mu N x0 T Q c Fe); auto. apply snh_rest; assumption.
Qed.

(** ** C108: tractions *)
(** the force a traction condition contributes: half the current area of its triangle times the load, a third at each corner *)
Theorem C108_traction_partial N x cs : Forall (fun c => (tr_i c < N /\ tr_j c < N /\ tr_k c < N)%nat) cs ->
  vtotal N (compute_traction_forces x cs) = vlist_sum (map (fun c => vscale (tri_area (x (tr_i c)) (x (tr_j c)) (x (tr_k c)) / 2) (tr_load c)) cs) /\
  forall h, work N (compute_traction_forces x cs) h =
    sum (map (fun c => tri_area (x (tr_i c)) (x (tr_j c)) (x (tr_k c)) / 2 * (vdot (tr_load c) (h (tr_i c)) / 3 + vdot (tr_load c) (h (tr_j c)) / 3 + vdot (tr_load c) (h (tr_k c)) / 3)) cs).
Proof.
  intros HV. assert (W : forall h, work N (compute_traction_forces x cs) h =
    sum (map (fun c => tri_area (x (tr_i c)) (x (tr_j c)) (x (tr_k c)) / 2 * (vdot (tr_load c) (h (tr_i c)) / 3 + vdot (tr_load c) (h (tr_j c)) / 3 + vdot (tr_load c) (h (tr_k c)) / 3)) cs)).
  { intros h. unfold compute_traction_forces. rewrite <- (Rplus_0_l (sum _)). rewrite <- (work_fzero N h). generalize fzero. induction HV as [|c cs (Hi & Hj & Hk) HV IH]; intros y; cbn [fold_left map sum fold_right]; [ring|].
    rewrite IH. rewrite !work_fadd by assumption.
    replace (vnorm (vscale (/ 2) (vcross (vsub (x (tr_j c)) (x (tr_i c))) (vsub (x (tr_k c)) (x (tr_i c)))))) with (tri_area (x (tr_i c)) (x (tr_j c)) (x (tr_k c))).
    2:{ unfold tri_area, vnorm. generalize (vcross (vsub (x (tr_j c)) (x (tr_i c))) (vsub (x (tr_k c)) (x (tr_i c)))). intros w.
        replace (vdot (vscale (/ 2) w) (vscale (/ 2) w)) with ((/ 2 * / 2) * vdot w w) by (destruct w; vunf; ring). rewrite sqrt_mult by (try lra; apply vdot_self_nonneg). rewrite sqrt_square by lra. field. }
    generalize (tri_area (x (tr_i c)) (x (tr_j c)) (x (tr_k c))) (tr_load c) (h (tr_i c)) (h (tr_j c)) (h (tr_k c)). intros a l p q r. unfold sum. destruct l, p, q, r. munf. field. }
  split; [|exact W]. apply vdot_ext. intros c. rewrite vtotal_dot, W. clear. induction cs as [|t cs IH]; cbn [map sum fold_right vlist_sum]; [destruct c; vunf; ring|]. unfold sum in IH. rewrite IH. unfold vlist_sum.
  generalize (fold_right vadd vzero (map (fun c0 => vscale (tri_area (x (tr_i c0)) (x (tr_j c0)) (x (tr_k c0)) / 2) (tr_load c0)) cs)) (tri_area (x (tr_i t)) (x (tr_j t)) (x (tr_k t))) (tr_load t). intros u a l. destruct c, u, l. vunf. field.
Qed.
(** a constant load on a triangle should give area times load; the code gives half of it *)
Theorem C108_total_load_refuted : ~ (forall N x c, (tr_i c < N /\ tr_j c < N /\ tr_k c < N)%nat ->
  vtotal N (compute_traction_forces x [c]) = vscale (tri_area (x (tr_i c)) (x (tr_j c)) (x (tr_k c))) (tr_load c)).
Proof.
  intros H. specialize (H 3%nat unit_tet (mkTraction 0 1 2 (mkV 0 0 1))). cbn [tr_i tr_j tr_k tr_load] in H. specialize (H ltac:(lia)).
  destruct (C108_traction_partial 3 unit_tet [mkTraction 0 1 2 (mkV 0 0 1)]) as [E _]. { constructor; [cbn; lia|constructor]. }
  rewrite E in H. cbn [map vlist_sum fold_right tr_i tr_j tr_k tr_load] in H.
  assert (A : tri_area (unit_tet 0%nat) (unit_tet 1%nat) (unit_tet 2%nat) = 1 / 2).
  { unfold tri_area, unit_tet, vnorm. replace (vdot _ _) with 1 by (vunf; ring). rewrite sqrt_1. reflexivity. }
  rewrite A in H. apply (f_equal vz) in H. revert H. vunf. lra.
Qed.

(** ** C109: energies *)
Lemma fold_sum {A} (f : A -> R) l s : fold_left (fun s a => s + f a) l s = s + sum (map f l).
Proof. revert s. induction l as [|a l IH]; intros s; cbn [fold_left map sum fold_right]; [ring|]. rewrite IH. unfold sum. ring. Qed.
Lemma kinetic_sum T vol rho u : kinetic_energy T vol rho u = sum (map (fun tv : elem * R => rho * snd tv * vdot (mid4 u (fst tv)) (mid4 u (fst tv)) / 2) (combine T vol)).
Proof.
  unfold kinetic_energy. rewrite (fold_ext _ (fun s (tv : elem * R) => s + rho * snd tv * vdot (mid4 u (fst tv)) (mid4 u (fst tv)) / 2)) by (intros s [t v]; reflexivity).
  rewrite (fold_sum (fun tv : elem * R => rho * snd tv * vdot (mid4 u (fst tv)) (mid4 u (fst tv)) / 2)). ring.
Qed.
Lemma mid4_sum4 u t : mid4 u t = vscale (/ 4) (sum4 u t). Proof. reflexivity. Qed.
(** the reported kinetic energy is never negative and never exceeds (1/2) u^T M u of either mass matrix; for a translating body it
    is (1/2) m v^2 *)
Theorem C109_kinetic N T vol rho lumped u : valid_mesh N T -> 0 <= rho -> Forall (fun v => 0 <= v) vol ->
  0 <= kinetic_energy T vol rho u <= work N (prod_mat_vec T (compute_mass_element_array rho vol lumped) u) u / 2.
Proof.
  intros HT Hr Hv. rewrite kinetic_sum, (mass_work N T vol rho lumped _ _ HT).
  assert (Hv2 : Forall (fun tv : elem * R => 0 <= snd tv) (combine T vol)). { apply Forall_forall. intros [t v] Hin. apply in_combine_r in Hin. rewrite Forall_forall in Hv. apply Hv. exact Hin. }
  clear HT Hv. assert (C : forall t, vdot (mid4 u t) (mid4 u t) <= elem_form lumped t u u).
  { intros t. assert (Q : vdot (sum4 u t) (sum4 u t) <= 16 * lumped_form t u u).
    { unfold sum4, lumped_form. generalize (u (node t 0)) (u (node t 1)) (u (node t 2)) (u (node t 3)). intros a b c d.
      pose proof (vdot_self_nonneg (vsub a b)). pose proof (vdot_self_nonneg (vsub a c)). pose proof (vdot_self_nonneg (vsub a d)). pose proof (vdot_self_nonneg (vsub b c)). pose proof (vdot_self_nonneg (vsub b d)). pose proof (vdot_self_nonneg (vsub c d)).
      assert (E : 4 * (vdot a a + vdot b b + vdot c c + vdot d d) - vdot (vadd (vadd (vadd a b) c) d) (vadd (vadd (vadd a b) c) d) =
        vdot (vsub a b) (vsub a b) + vdot (vsub a c) (vsub a c) + vdot (vsub a d) (vsub a d) + vdot (vsub b c) (vsub b c) + vdot (vsub b d) (vsub b d) + vdot (vsub c d) (vsub c d)) by (clear; destruct a, b, c, d; vunf; ring).
      lra. }
    rewrite mid4_sum4. replace (vdot (vscale (/ 4) (sum4 u t)) (vscale (/ 4) (sum4 u t))) with (vdot (sum4 u t) (sum4 u t) / 16) by (destruct (sum4 u t); vunf; field).
    pose proof (vdot_self_nonneg (sum4 u t)). destruct lumped; cbn [elem_form]; [|unfold consistent_form]; lra. }
  induction Hv2 as [|[t v] l H1 H2 IH]; cbn [map sum fold_right fst snd] in *; [lra|]. unfold sum in *. specialize (C t). pose proof (vdot_self_nonneg (mid4 u t)). assert (0 <= rho * v) by nra. nra.
Qed.
Theorem C109_kinetic_translation T vol rho v : length T = length vol -> kinetic_energy T vol rho (fun _ => v) = (rho * sum vol) * vdot v v / 2.
Proof.
  intros HL. rewrite kinetic_sum. revert vol HL. induction T as [|t T IH]; intros [|w vol] HL; cbn in HL; try discriminate; cbn [combine map sum fold_right fst snd]; [unfold Rdiv; ring|]. unfold sum in IH. rewrite IH by lia.
  replace (mid4 (fun _ => v) t) with v by (unfold mid4; destruct v; vunf; f_equal; field). unfold sum. field.
Qed.
(** ... but for other motions it can be smaller than (1/2) u^T M u: a tetrahedron with nodal velocities of zero mean has none *)
Theorem C109_kinetic_exact_refuted : ~ (forall N T vol rho lumped u, valid_mesh N T -> kinetic_energy T vol rho u = work N (prod_mat_vec T (compute_mass_element_array rho vol lumped) u) u / 2).
Proof.
  intros H. set (u := fun n : nat => match n with O => mkV 1 0 0 | 1%nat => mkV (-1) 0 0 | _ => vzero end).
  specialize (H 4%nat one_tet [1] 1 true u one_tet_valid). rewrite kinetic_sum, (mass_work 4 one_tet [1] 1 true u u one_tet_valid) in H. unfold one_tet in H. cbn [combine map sum fold_right fst snd elem_form] in H.
  revert H. unfold lumped_form, mid4, sum, u. cbn [node fold_right]. vunf. lra.
Qed.
(** potential energy and gravity force belong together: displacing the nodes changes the energy by minus the work of gravity, exactly *)
Theorem C109_potential N T vol rho g x h : valid_mesh N T -> potential_energy T vol rho g (fun n => vadd (x n) (h n)) = potential_energy T vol rho g x - work N (compute_gravity_forces T vol rho g) h.
Proof.
  intros HT. rewrite (gravity_work N T vol rho g h HT). unfold potential_energy.
  rewrite !(fold_ext _ (fun s (tv : elem * R) => s + rho * snd tv * vdot (vopp g) (mid4 (fun n => vadd (x n) (h n)) (fst tv)))) by (intros s [t v]; reflexivity).
  rewrite (fold_ext (fun s (tv : elem * R) => let (t, v) := tv in s + rho * v * vdot (vopp g) (mid4 x t)) (fun s (tv : elem * R) => s + rho * snd tv * vdot (vopp g) (mid4 x (fst tv)))) by (intros s [t v]; reflexivity).
  rewrite (fold_sum (fun tv : elem * R => rho * snd tv * vdot (vopp g) (mid4 (fun n => vadd (x n) (h n)) (fst tv)))), (fold_sum (fun tv : elem * R => rho * snd tv * vdot (vopp g) (mid4 x (fst tv)))).
  clear. induction (combine T vol) as [|[t v] l IH]; cbn [map sum fold_right fst snd]; [unfold sum; cbn; ring|]. unfold sum in *.
  match goal with |- 0 + (?a + ?b) = 0 + (?c + ?d) - (?k + ?m) => replace (0 + (a + b)) with (a + (0 + b)) by ring; rewrite IH; replace a with (c - k); [ring|] end.
  unfold mid4, sum4. generalize (x (node t 0)) (x (node t 1)) (x (node t 2)) (x (node t 3)) (h (node t 0)) (h (node t 1)) (h (node t 2)) (h (node t 3)). intros [] [] [] [] [] [] [] []. destruct g. vunf. field.
Qed.
Example C109_nonvacuous : kinetic_energy one_tet [1] 1000 (fun _ => mkV 0 2 0) = 2000.
Proof. rewrite C109_kinetic_translation by reflexivity. unfold sum. cbn [fold_right]. vunf. field. Qed.

(** ** C110: Dirichlet conditions on a linear system *)
(** the value prescribed for node i: the last condition that mentions it *)
Definition prescribed (cs : list dirichlet) (i : nat) : option vec3 :=
  fold_left (fun o c => if Nat.eqb (d_idx c) i then Some (d_value c) else o) cs None.
Lemma in_rows_div i n : in_rows i n = Nat.eqb (n / 3) i. Proof. apply slice_cond. Qed.
Lemma dirichlet_rows cs : forall A b,
  (forall i, fold_left (fun o c => if Nat.eqb (d_idx c) (i / 3) then Some (d_value c) else o) cs None = None ->
     snd (apply_dirichlet_conditions cs (A, b)) i = b i /\ forall j, fst (apply_dirichlet_conditions cs (A, b)) i j = A i j) /\
  (forall i v, fold_left (fun o c => if Nat.eqb (d_idx c) (i / 3) then Some (d_value c) else o) cs None = Some v ->
     snd (apply_dirichlet_conditions cs (A, b)) i = vcomp v (i mod 3) /\ forall j, fst (apply_dirichlet_conditions cs (A, b)) i j = if Nat.eqb i j then 1 else 0).
Proof.
  induction cs as [|c cs IH] using rev_ind; intros A b.
  - cbn. split; [intros i _; split; reflexivity|intros i v; discriminate].
  - unfold apply_dirichlet_conditions in *. destruct (IH A b) as [H1 H2]. rewrite !fold_left_app. cbn [fold_left].
    destruct (fold_left _ cs (A, b)) as [A' b'] eqn:E. cbn [fst snd] in *.
    split.
    + intros i H. rewrite fold_left_app in H. cbn [fold_left] in H. rewrite in_rows_div, Nat.eqb_sym. destruct (Nat.eqb (d_idx c) (i / 3)) eqn:Q; [discriminate|]. apply H1. exact H.
    + intros i v H. rewrite fold_left_app in H. cbn [fold_left] in H. rewrite in_rows_div, Nat.eqb_sym. destruct (Nat.eqb (d_idx c) (i / 3)) eqn:Q; [|apply H2; exact H].
      injection H as <-. rewrite Nat.eqb_sym in Q. rewrite (slice_off (d_idx c) i Q). split; [reflexivity|]. reflexivity.
Qed.
(** every solution of the modified system takes the prescribed values; the equations of all other nodes are those of the
    original system *)
Theorem C110_dirichlet N cs A b x : let Ab := apply_dirichlet_conditions cs (A, b) in
  (forall i, (i < 3 * N)%nat -> mdotv (3 * N) (fst Ab) x i = snd Ab i) ->
  (forall i v, (i < N)%nat -> prescribed cs i = Some v -> unflat x i = v) /\
  (forall i, (i < 3 * N)%nat -> prescribed cs (i / 3) = None -> mdotv (3 * N) A x i = b i).
Proof.
  intros Ab H. subst Ab. destruct (dirichlet_rows cs A b) as [H1 H2]. split.
  - intros i v Hi HP.
    assert (K : forall q, (q < 3)%nat -> x (3 * i + q)%nat = vcomp v q).
    { intros q Hq. assert (D : ((3 * i + q) / 3 = i)%nat) by (symmetry; apply (Nat.div_unique _ 3 i q); lia). assert (M : ((3 * i + q) mod 3 = q)%nat) by (symmetry; apply (Nat.mod_unique _ 3 i q); lia).
      destruct (H2 (3 * i + q)%nat v) as [B R]. { rewrite D. exact HP. } rewrite M in B. rewrite <- B. rewrite <- (H (3 * i + q)%nat) by lia. unfold mdotv.
      rewrite (rsum_single (3 * N) (3 * i + q)); [rewrite R, Nat.eqb_refl; ring|lia|]. intros j Hj Hne. rewrite R. destruct (Nat.eqb_spec (3 * i + q) j); [exfalso; auto|ring]. }
    unfold unflat. rewrite <- (Nat.add_0_r (3 * i)) at 1. rewrite !K by lia. destruct v; reflexivity.
  - intros i Hi HP. destruct (H1 i HP) as [B R]. rewrite <- B, <- (H i Hi). unfold mdotv. apply rsum_ext. intros j _. rewrite R. reflexivity.
Qed.
Example C110_nonvacuous : prescribed [mkDir 1 (mkV 1 2 3); mkDir 0 vzero] 1 = Some (mkV 1 2 3) /\ prescribed [mkDir 1 (mkV 1 2 3); mkDir 0 vzero] 2 = None.
Proof. split; reflexivity. Qed.
Print Assumptions C106_svk.
Print Assumptions C106_snh_refuted.
Print Assumptions C107_no_net_torque_models.
